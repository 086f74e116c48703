(** Model of navlie/datagen.py.

    Arithmetic on stamps is exact; [rnd] is np.round(., 12).  States are elements of any type X
    with a stamp that can be read and assigned; the process model may raise.  Randomness
    (randvec) is an oracle: [nu k] and [ny j] are what is added to the k-th input and to the
    j-th measurement; noise=False is the oracle that adds nothing. *)
From mathcomp Require Import all_ssreflect all_algebra.
From Verif Require Import Base RunFilterModel.
Set Implicit Arguments.
Unset Strict Implicit.
Unset Printing Implicit Defensive.
Import Order.Theory GRing.Theory Num.Theory.
Local Open Scope ring_scope.

Section Arange.
Variable T : archiFieldType.
(** np.arange(a, b, s): max(0, ceil((b - a) / s)) values a + i s *)
Definition arange_len (a b s : T) : nat :=
  find (fun n : nat => (b - a) / s <= n%:R) (iota 0 (Num.bound ((b - a) / s)).+1).
Definition arange (a b s : T) : seq T := [seq a + i%:R * s | i <- iota 0 (arange_len a b s)].
(** 1 / freq: Python float division *)
Definition period (freq : T) : result T := if freq == 0 then Raise ZeroDivisionError else Ok freq^-1.
End Arange.

Section Init.
Variables (T : Type) (M : Type) (zero : T).
(** an argument that may be omitted, a float or a list of floats *)
Inductive farg := FNone | FScalar of T | FList of seq T.

(** zip of three lists *)
Definition zip3 A B C (a : seq A) (b : seq B) (c : seq C) : seq (A * B * C) := zip (zip a b) c.

(** DataGenerator.__init__, datagen.py:47-113, for a list of measurement models.  Result: the
    schedule (model, frequency, offset), and what the caller's list of offsets contains
    afterwards (line 95 multiplies it in place). *)
Definition datagen_init (ms : seq M) (freqs offs : farg) : result (seq (M * T * T) * option (seq T)) :=
  let has_models := ~~ nilp ms in
  (* 75-76 *)
  if has_models && (if freqs is FNone then true else false) then Raise ValueError else
  (* 79-80: len(meas_offset_list) of a float *)
  offs1 <~ (match offs with
            | FNone => Ok (FList (if has_models then [:: zero] else [::]))
            | FScalar a => if has_models then Raise TypeError else Ok (FScalar a)
            | FList l => Ok (FList (if has_models && nilp l then [:: zero] else l))
            end) ;;
  (* 83-87: a missing frequency only reaches here without models *)
  let fl := match freqs with FNone => [::] | FScalar q => nseq (size ms) q
            | FList l => if l is [:: q] then nseq (size ms) q else l end in
  (* 90-104 *)
  ol <~ (match offs1 with
         | FNone => Raise ValueError
         | FScalar a => Ok (nseq (size ms) a)
         | FList l => if l is [:: a] then Ok (nseq (size ms) a)
                      else if size l == size ms then Ok l else Raise ValueError
         end) ;;
  Ok (zip3 ms fl ol,
      match offs with FList [:: a] => Some (nseq (size ms) a) | FList l => Some l | _ => None end).
End Init.

Section Generate.
Variable T : archiFieldType.
Variables (X U Y M : Type).
Variables (xstamp : X -> T) (restamp : X -> T -> X) (ustamp : U -> T).
Variable f : X -> U -> T -> result X.           (* process_model.evaluate *)
Variable uin : T -> X -> U.                     (* input_func, wrapped in a VectorInput if raw: 176-187 *)
Variable meval : M -> X -> option Y.            (* model.evaluate; None: no measurement *)
Variable rnd : T -> T.
Variable nu : nat -> U -> U.
Variable ny : nat -> Y -> Y.

Record meas := Meas { me_val : option Y; me_stamp : T; me_model : M }.

(** datagen.py:149-158: the empty measurements of one model *)
Definition empty_meas (t0 tlast : T) (info : M * T * T) : result (seq meas) :=
  let: (m, freq, off) := info in
  s <~ period freq ;; Ok [seq Meas None (rnd a) m | a <- arange (t0 + off) tlast s].
(** 149-161 *)
Definition plan (infos : seq (M * T * T)) (t0 tlast : T) : result (seq meas) :=
  l <~ mapM (empty_meas t0 tlast) infos ;; Ok (sort_by me_stamp (flatten l)).

(** 190-207: fill the measurements due before [tnext].  [pending] is meas_list[meas_idx:];
    generate_measurement (276-283) reads y.shape, an AttributeError when y is None. *)
Fixpoint fill (j : nat) (x : X) (u : U) (tnext : T) (pending : seq meas) : result (X * seq meas * seq meas) :=
  match pending with
  | m :: r =>
      if me_stamp m < tnext then
        x' <~ f x u (me_stamp m - xstamp x) ;;
        let x1 := restamp x' (me_stamp m) in
        match meval (me_model m) x1 with
        | None => Raise AttributeError
        | Some y =>
            o <~ fill j.+1 x1 u tnext r ;;
            let: (x2, filled, rest) := o in
            Ok (x2, Meas (Some (ny j y)) (me_stamp m) (me_model m) :: filled, rest)
        end
      else Ok (x, [::], pending)
  | [::] => Ok (x, [::], [::])
  end.

(** 173-219: the loop over the remaining times; [t] is times[k], x the state there.
    Results: the states after t, the inputs, all measurements *)
Fixpoint steps (k j : nat) (t : T) (x : X) (ts : seq T) (pending : seq meas) : result (seq X * seq U * seq meas) :=
  match ts with
  | [::] => Ok ([::], [::], pending)
  | tn :: r =>
      let u := uin t x in
      o <~ fill j x u tn pending ;;
      let: (x1, filled, rest) := o in
      x2 <~ f x1 u (tn - xstamp x1) ;;
      let x3 := restamp x2 tn in
      o <~ steps k.+1 (j + size filled) tn x3 r rest ;;
      let: (xs, us, ms) := o in
      Ok (x3 :: xs, nu k u :: us, filled ++ ms)
  end.

(** DataGenerator.generate, datagen.py:131-224.  Empty [times]: times[0] is an IndexError *)
Definition generate (infos : seq (M * T * T)) (input_freq : T) (x0 : X) (start stop : T)
  : result (seq X * seq U * seq meas) :=
  s <~ period input_freq ;;
  match map rnd (arange start stop s) with
  | [::] => Raise IndexError
  | t0 :: ts =>
      pending <~ plan infos t0 (last t0 ts) ;;
      let x := restamp x0 t0 in
      o <~ steps 0 0 t0 x ts pending ;;
      let: (xs, us, ms) := o in
      Ok (sort_by xstamp (x :: xs), sort_by ustamp us, sort_by me_stamp ms)
  end.
End Generate.
