(** Model of helper functions of navlie/utils/common.py.  Stamps are elements of an
    ordered field (exact arithmetic; no NaN or infinity). *)
From mathcomp Require Import all_ssreflect all_algebra.
From Verif Require Import Base.
Set Implicit Arguments.
Unset Strict Implicit.
Unset Printing Implicit Defensive.
Import Order.Theory GRing.Theory Num.Theory.
Local Open Scope ring_scope.

Section Assoc.
Variable R : realDomainType.
(** Python's lexicographic order on tuples (difference, idx_a, idx_b) and (idx_a, idx_b) *)
Definition le2 (p q : nat * nat) : bool := (p.1 < q.1)%N || ((p.1 == q.1) && (p.2 <= q.2)%N).
Definition le3 (p q : R * (nat * nat)) : bool := (p.1 < q.1) || ((p.1 == q.1) && le2 p.2 q.2).

(** the distance used by associate_stamps, common.py:320 *)
Definition gap (offset : R) (a b : R) : R := `|a - (b + offset)|.

(** common.py:319-324 *)
Definition potential_matches (offset maxd : R) (first second : seq R) : seq (R * (nat * nat)) :=
  flatten [seq pmap (fun jb => if gap offset ia.2 jb.2 < maxd then Some (gap offset ia.2 jb.2, (ia.1, jb.1)) else None)
                    (zip (iota 0 (size second)) second)
          | ia <- zip (iota 0 (size first)) first].

(** common.py:326-333: the loop over the sorted candidates; list.remove removes the first occurrence *)
Definition assoc_step (st : (seq nat * seq nat) * seq (nat * nat)) (c : R * (nat * nat)) :=
  let '((fi, se), ms) := st in
  if (c.2.1 \in fi) && (c.2.2 \in se) then ((rem c.2.1 fi, rem c.2.2 se), rcons ms c.2) else st.

(** associate_stamps, common.py:291-339 *)
Definition associate_stamps (first second : seq R) (offset maxd : R) : seq (nat * nat) :=
  let cands := sort le3 (potential_matches offset maxd first second) in
  let st := foldl assoc_step ((iota 0 (size first), iota 0 (size second)), [::]) cands in
  sort le2 st.2.
End Assoc.

Section Field.
Variable R : realFieldType.

(** schedule_sequential_measurements, common.py:260-288, for a list of n models *)
Definition schedule_sequential (n : nat) (freq : R) : result (seq R * R) :=
  if freq == 0 then Raise ZeroDivisionError else
  if n == 0%N then Raise ZeroDivisionError else
  Ok ([seq i%:R * (1 / freq) | i <- iota 0 n], freq / n%:R).

(** ** find_nearest_stamp_idx, common.py:342-382 *)
(** scipy interp1d(kind="nearest", fill_value="extrapolate"): sorts the abscissae with
    their ordinates (stable), forms the midpoints, and takes the number of midpoints
    strictly below the query (searchsorted, side="left").  An empty list is a ValueError. *)
Definition by_stamp (p q : R * nat) : bool := p.1 <= q.1.
Definition midpoints (xs : seq R) : seq R := [seq (p.1 / 2%:R + p.2 / 2%:R) | p <- zip xs (behead xs)].
Definition nearest (stamps : seq R) (q : R) : result nat :=
  let s := sort by_stamp (zip stamps (iota 0 (size stamps))) in
  let k := count (fun m => m < q) (midpoints [seq p.1 | p <- s]) in
  if stamps is [::] then Raise ValueError else Ok (nth (0, 0%N) s k).2.

(** the query: a float, any other number (an int or a numpy scalar), or a list *)
Inductive query := QFloat of R | QNumber of R | QList of seq R.
Inductive answer := AIndex of nat | AList of seq nat.
Definition find_nearest_stamp_idx (stamps : seq R) (q : query) : result answer :=
  match q with
  | QFloat t => k <~ nearest stamps t ;; Ok (AIndex k)
  | QNumber t => k <~ nearest stamps t ;; Ok (AList [:: k])
  | QList ts => if stamps is [::] then Raise ValueError else ks <~ mapM (nearest stamps) ts ;; Ok (AList ks)
  end.

(** ** state_interp, common.py:45-175 *)
Section Interp.
Variable V : Type.
Variable n : nat.
Variable plus : V -> 'cV[R]_n -> V.
Variable minus : V -> V -> 'cV[R]_n.
(** a stamped state *)
Definition sstate := (V * R)%type.

(** np.interp(q, xs, range(N)) for sorted xs: clamped, linear on segments
    xs[j] <= q < xs[j+1] *)
Definition np_interp (xs : seq R) (q : R) : R :=
  let N := size xs in
  if q < nth 0 xs 0 then 0
  else if nth 0 xs N.-1 <= q then N.-1%:R
  else let j := (count (fun x => x <= q) xs).-1 in
       j%:R + (q - nth 0 xs j) / (nth 0 xs j.+1 - nth 0 xs j).
(** np.floor(v) for 0 <= v <= N *)
Definition np_floor (N : nat) (v : R) : nat := count (fun k => k%:R <= v) (iota 1 N).

(** one query, method="linear": indices into the state list, which keeps its own
    order, are computed from the sorted stamps.  A division by zero gives nan or inf:
    RuntimeError("wtf"). *)
Definition interp_one (states : seq sstate) (q : R) : result sstate :=
  let xs := sort <=%R [seq s.2 | s <- states] in
  let N := size states in
  let lo := np_floor N (np_interp xs q) in
  let up := lo.+1 in
  let inside := ~~ ((q < nth 0 xs 0) || (N <= up)%N) in
  let up := if up == N then N.-1 else up in
  sl <~ py_nth states lo ;;
  su <~ py_nth states up ;;
  let d := nth 0 xs up - nth 0 xs lo in
  let alpha := if inside then (q - nth 0 xs lo) / d else 0 in
  if inside && (d == 0) then Raise RuntimeError
  else if alpha < 0 then Raise RuntimeError
  else Ok (plus sl.1 (alpha *: minus su.1 sl.1), q).

(** query_stamps: a float, a list of numbers or stamped objects, a number that is not a
    float (no .copy(): AttributeError), or a single stamped object (copied, then not
    iterable: TypeError). *)
Inductive squery := SFloat of R | SList of seq R | SInt of R | SObject of R.
Definition state_interp (q : squery) (states : seq sstate) : result (seq sstate) :=
  match q with
  | SFloat t => if states is [::] then Raise ValueError else s <~ interp_one states t ;; Ok [:: s]
  | SList ts => if states is [::] then Raise ValueError else mapM (interp_one states) ts
  | SInt _ => Raise AttributeError
  | SObject _ => Raise TypeError
  end.
End Interp.

(** ** jacobian, common.py:385-515 *)
Section FD.
Variables (V W : Type) (n m : nat).
Variable plus : V -> 'cV[R]_n -> V.          (* x.plus(dx), or x + dx for arrays *)
Variable minus : W -> W -> 'cV[R]_m.         (* Y.minus(Y_bar), or Y - Y_bar *)
Inductive fd_method := Forward | Central | OtherMethod.
Definition dir (h : R) (i : 'I_n) : 'cV[R]_n := h *: delta_mx i 0.
(** common.py:466-468 *)
Definition func_to_diff (f : V -> W) (x : V) (dx : 'cV[R]_n) : 'cV[R]_m := minus (f (plus x dx)) (f x).
Definition fd_jacobian (f : V -> W) (x : V) (h : R) (md : fd_method) : result 'M[R]_(m, n) :=
  let F := func_to_diff f x in
  match md with
  | Forward => Ok (\matrix_(r, i) ((F (dir h i) - F 0) r 0 / h))
  | Central => Ok (\matrix_(r, i) ((F (dir h i) - F (- dir h i)) r 0 / (2%:R * h)))
  | OtherMethod => if n == 0%N then Ok 0 else Raise ValueError
  end.
End FD.
End Field.
