(** Model of navlie/composite.py (and navlie/lib/states.py VectorState).

    Leaves are any non-composite State: value type [L], with its dof, plus,
    minus and Jacobians given by a record [leafops].  Composite states nest to
    any depth.  Perturbation vectors are flat sequences of scalars (the code
    slices, reshapes and concatenates 1-D arrays). *)
From mathcomp Require Import all_ssreflect all_algebra.
From Verif Require Import Base.
Set Implicit Arguments.
Unset Strict Implicit.
Unset Printing Implicit Defensive.

Section Composite.
Variable R : ringType.          (* scalars *)
Variable T : Type.              (* time stamps *)
Variable I : eqType.            (* state ids ("Any" in the code, compared with ==) *)
Variable L : Type.              (* values of leaf states *)

(** Interface of a leaf State: navlie/types.py:48-183 (State: plus, minus,
    dof, plus_jacobian, minus_jacobian).  Each operation may raise. *)
Record leafops : Type := LeafOps {
  l_dof   : L -> nat;
  l_plus  : L -> seq R -> result L;
  l_minus : L -> L -> result (seq R);
  l_pjac  : L -> seq R -> result (arr R);
  l_mjac  : L -> L -> result (arr R)
}.
Variable ops : leafops.

(** A State object: a leaf, or a CompositeState holding a list of states;
    each carries stamp and state_id.  composite.py:24-46, types.py:84-94. *)
Inductive state : Type :=
| Leaf (v : L) (stamp : option T) (sid : I)
| Comp (subs : seq state) (stamp : option T) (sid : I).

Definition s_id (s : state) : I := match s with Leaf _ _ i => i | Comp _ _ i => i end.
Definition s_stamp (s : state) : option T := match s with Leaf _ t _ => t | Comp _ t _ => t end.
Definition set_stamp (t : option T) (s : state) : state :=
  match s with Leaf v _ i => Leaf v t i | Comp l _ i => Comp l t i end.

(** composite.py:75-77  dof: sum of the substates' dof. *)
Fixpoint s_dof (s : state) : nat :=
  match s with
  | Leaf v _ _ => l_dof ops v
  | Comp l _ _ => sumn (map s_dof l)
  end.

(** composite.py:85-95  get_slices. *)
Fixpoint get_slices_from (counter : nat) (l : seq state) : seq (nat * nat) :=
  match l with
  | [::] => [::]
  | s :: r => (counter, counter + s_dof s) :: get_slices_from (counter + s_dof s) r
  end.
Definition get_slices (l : seq state) : seq (nat * nat) := get_slices_from 0 l.

(** composite.py:79-83  get_index_by_id: list.index, ValueError if absent. *)
Definition get_index_by_id (l : seq state) (i : I) : result nat :=
  let ids := map s_id l in
  if i \in ids then Ok (index i ids) else Raise ValueError.

(** composite.py:106-115  get_slice_by_id (slices default to get_slices()). *)
Definition get_slice_by_id (l : seq state) (i : I) : result (nat * nat) :=
  idx <~ get_index_by_id l i ;; py_nth (get_slices l) idx.

(** composite.py:97-99  add_state (its stamp and state_id arguments are unused). *)
Definition add_state (l : seq state) (s : state) : seq state := rcons l s.

(** list.pop(idx) *)
Definition pop {A} (l : seq A) (k : nat) : seq A := take k l ++ drop k.+1 l.

(** composite.py:101-104  remove_state_by_id. *)
Definition remove_state_by_id (l : seq state) (i : I) : result (seq state) :=
  idx <~ get_index_by_id l i ;; Ok (pop l idx).

(** composite.py:191-196  get_state_by_id. *)
Definition get_state_by_id (l : seq state) (i : I) : result state :=
  idx <~ get_index_by_id l i ;; py_nth l idx.

(** composite.py:198-203 / 205-210  get_dof_by_id, get_stamp_by_id. *)
Definition get_dof_by_id (l : seq state) (i : I) : result nat := rmap s_dof (get_state_by_id l i).
Definition get_stamp_by_id (l : seq state) (i : I) : result (option T) :=
  rmap s_stamp (get_state_by_id l i).

(** self.value[idx] = x  (idx in range; list assignment). *)
Definition py_set {A} (l : seq A) (k : nat) (x : A) : result (seq A) :=
  if k < size l then Ok (take k l ++ x :: drop k.+1 l) else Raise IndexError.

(** composite.py:219-224  set_state_by_id. *)
Definition set_state_by_id (l : seq state) (s : state) (i : I) : result (seq state) :=
  idx <~ get_index_by_id l i ;; py_set l idx s.

(** composite.py:212-217  set_stamp_by_id. *)
Definition set_stamp_by_id (l : seq state) (t : option T) (i : I) : result (seq state) :=
  idx <~ get_index_by_id l i ;; s <~ py_nth l idx ;; py_set l idx (set_stamp t s).

(** composite.py:233-238  set_stamp_for_all: direct substates only. *)
Definition set_stamp_for_all (l : seq state) (t : option T) : seq state := map (set_stamp t) l.

(** composite.py:117-147  get_matrix_block_by_ids (state_id_2 None means id 1). *)
Definition get_matrix_block_by_ids (l : seq state) (M : arr R) (i1 : I) (i2 : option I)
  : result (arr R) :=
  let i2 := if i2 is Some i then i else i1 in
  s1 <~ get_slice_by_id l i1 ;; s2 <~ get_slice_by_id l i2 ;; Ok (getblock M s1 s2).

(** composite.py:149-182  set_matrix_block_by_ids. *)
Definition set_matrix_block_by_ids (l : seq state) (B M : arr R) (i1 : I) (i2 : option I)
  : result (arr R) :=
  let i2 := if i2 is Some i then i else i1 in
  s1 <~ get_slice_by_id l i1 ;; s2 <~ get_slice_by_id l i2 ;; setblock M s1 s2 B.

(** composite.py:255-268  plus (without new_stamp).  The loop consumes dx:
    [dx[:dof]] is given to the substate, then [dx = dx[dof:]].  Leaf: the
    leaf's own plus, keeping stamp and id. *)
Fixpoint s_plus (s : state) (dx : seq R) {struct s} : result state :=
  match s with
  | Leaf v t i => v' <~ l_plus ops v dx ;; Ok (Leaf v' t i)
  | Comp l t i =>
      l' <~ (fix go (l : seq state) (dx : seq R) {struct l} : result (seq state) :=
               match l with
               | [::] => Ok [::]
               | s :: r =>
                   s' <~ s_plus s (take (s_dof s) dx) ;;
                   r' <~ go r (drop (s_dof s) dx) ;;
                   Ok (s' :: r')
               end) l dx ;;
      Ok (Comp l' t i)
  end.

(** The same loop, named. *)
Fixpoint plus_list (l : seq state) (dx : seq R) : result (seq state) :=
  match l with
  | [::] => Ok [::]
  | s :: r =>
      s' <~ s_plus s (take (s_dof s) dx) ;;
      r' <~ plus_list r (drop (s_dof s) dx) ;;
      Ok (s' :: r')
  end.

(** composite.py:255-268 with new_stamp. *)
Definition c_plus (l : seq state) (t : option T) (i : I) (dx : seq R) (new_stamp : option T)
  : result state :=
  l' <~ plus_list l dx ;;
  Ok (Comp (if new_stamp is Some ts then set_stamp_for_all l' (Some ts) else l') t i).

(** composite.py:270-277  minus.  Iterates over the substates of the ARGUMENT,
    indexes self (IndexError if self is shorter), reshapes to self.value[i].dof
    (ValueError on size mismatch), and np.concatenate raises ValueError on an
    empty list.  Simplification: mixing leaf and composite is reported as
    AttributeError. *)
Fixpoint s_minus (self x : state) {struct self} : result (seq R) :=
  match self, x with
  | Leaf v _ _, Leaf w _ _ => l_minus ops v w
  | Comp l _ _, Comp lx _ _ =>
      ds <~ (fix go (l lx : seq state) {struct l} : result (seq (seq R)) :=
               match lx, l with
               | [::], _ => Ok [::]
               | _ :: _, [::] => Raise IndexError
               | x :: rx, s :: r =>
                   d <~ s_minus s x ;;
                   if size d == s_dof s then ds <~ go r rx ;; Ok (d :: ds)
                   else Raise ValueError
               end) l lx ;;
      if ds is [::] then Raise ValueError else Ok (flatten ds)
  | _, _ => Raise AttributeError
  end.

Fixpoint minus_list (l lx : seq state) {struct l} : result (seq (seq R)) :=
  match lx, l with
  | [::], _ => Ok [::]
  | _ :: _, [::] => Raise IndexError
  | x :: rx, s :: r =>
      d <~ s_minus s x ;;
      if size d == s_dof s then ds <~ minus_list r rx ;; Ok (d :: ds)
      else Raise ValueError
  end.

(** composite.py:279-291  plus_by_id.  Note line 287: the value returned by
    [plus] is dropped; only its exceptions are observable. *)
Definition plus_by_id (l : seq state) (t : option T) (i0 : I) (dx : seq R) (i : I)
  (new_stamp : option T) : result state :=
  idx <~ get_index_by_id l i ;;
  s <~ py_nth l idx ;;
  _ <~ s_plus s dx ;;
  if new_stamp is Some ts then
    l' <~ set_stamp_by_id l (Some ts) i ;; Ok (Comp l' t i0)
  else Ok (Comp l t i0).

(** composite.py:293-307  jacobian_from_blocks.  block_dict is the list of
    dictionary items in insertion order; an empty one gives IndexError (299). *)
Definition jacobian_from_blocks (l : seq state) (d : seq (I * arr R)) : result (arr R) :=
  match d with
  | [::] => Raise IndexError
  | (_, b0) :: _ =>
      let m := nrow b0 in
      let jac := azeros R m (sumn (map s_dof l)) in
      foldM (fun jac ib =>
               slc <~ get_slice_by_id l ib.1 ;;
               setblock jac (0, m) slc ib.2) jac d
  end.

(** composite.py:309-321  plus_jacobian (leaf: the leaf's own). *)
Fixpoint s_pjac (s : state) (dx : seq R) {struct s} : result (arr R) :=
  match s with
  | Leaf v _ _ => l_pjac ops v dx
  | Comp l _ _ =>
      let dof := sumn (map s_dof l) in
      (fix go (l : seq state) (counter : nat) (dx : seq R) (jac : arr R) {struct l}
         : result (arr R) :=
         match l with
         | [::] => Ok jac
         | s :: r =>
             b <~ s_pjac s (take (s_dof s) dx) ;;
             jac' <~ setblock jac (counter, counter + s_dof s) (counter, counter + s_dof s) b ;;
             go r (counter + s_dof s) (drop (s_dof s) dx) jac'
         end) l 0 dx (azeros R dof dof)
  end.

Fixpoint pjac_list (l : seq state) (counter : nat) (dx : seq R) (jac : arr R)
  : result (arr R) :=
  match l with
  | [::] => Ok jac
  | s :: r =>
      b <~ s_pjac s (take (s_dof s) dx) ;;
      jac' <~ setblock jac (counter, counter + s_dof s) (counter, counter + s_dof s) b ;;
      pjac_list r (counter + s_dof s) (drop (s_dof s) dx) jac'
  end.

(** composite.py:323-334  minus_jacobian: iterates over SELF's substates. *)
Fixpoint s_mjac (self x : state) {struct self} : result (arr R) :=
  match self, x with
  | Leaf v _ _, Leaf w _ _ => l_mjac ops v w
  | Comp l _ _, Comp lx _ _ =>
      let dof := sumn (map s_dof l) in
      (fix go (l lx : seq state) (counter : nat) (jac : arr R) {struct l}
         : result (arr R) :=
         match l, lx with
         | [::], _ => Ok jac
         | _ :: _, [::] => Raise IndexError
         | s :: r, x :: rx =>
             b <~ s_mjac s x ;;
             jac' <~ setblock jac (counter, counter + s_dof s) (counter, counter + s_dof s) b ;;
             go r rx (counter + s_dof s) jac'
         end) l lx 0 (azeros R dof dof)
  | _, _ => Raise AttributeError
  end.

Fixpoint mjac_list (l lx : seq state) (counter : nat) (jac : arr R) {struct l}
  : result (arr R) :=
  match l, lx with
  | [::], _ => Ok jac
  | _ :: _, [::] => Raise IndexError
  | s :: r, x :: rx =>
      b <~ s_mjac s x ;;
      jac' <~ setblock jac (counter, counter + s_dof s) (counter, counter + s_dof s) b ;;
      mjac_list r rx (counter + s_dof s) jac'
  end.

(** scipy.linalg.block_diag of a list: zero blocks gives a (1, 0) array. *)
Fixpoint block_diag_list (bs : seq (arr R)) : arr R :=
  match bs with
  | [::] => Arr 0 0 (fun _ _ => 0%R)
  | b :: r =>
      let rest := block_diag_list r in
      Arr (nrow b + nrow rest) (ncol b + ncol rest)
          (fun i j => if (i < nrow b) && (j < ncol b) then ent b i j
                      else if (nrow b <= i) && (ncol b <= j)
                           then ent rest (i - nrow b) (j - ncol b) else 0%R)
  end.
Definition block_diag (bs : seq (arr R)) : arr R :=
  if bs is [::] then Arr 1 0 (fun _ _ => 0%R) else block_diag_list bs.

(** A process / measurement model as its three methods.
    types.py:261-452 (ProcessModel), 186-258 (MeasurementModel). *)
Section PModels.
Variable U : Type.                       (* elementary inputs *)
Variable DT : Type.                      (* time differences *)
Record pmodel : Type := PModel {
  pm_eval : state -> U -> DT -> result state;
  pm_jac  : state -> U -> DT -> result (arr R);
  pm_cov  : state -> U -> DT -> result (arr R)
}.

(** The input handed to CompositeProcessModel: one shared input, or the
    input_list of a CompositeInput.  composite.py:470-476, 486-489. *)
Inductive cinput : Type := Shared (u : U) | PerState (us : seq U).

(** The common loop of evaluate/jacobian/covariance: for each substate i use
    model i and input i (IndexError if missing).  The input is looked up
    before the model (486-490). *)
Fixpoint pm_loop {B} (f : pmodel -> state -> U -> result B)
  (l : seq state) (ms : seq pmodel) (cu : cinput) {struct l} : result (seq B) :=
  match l with
  | [::] => Ok [::]
  | s :: r =>
      match cu with
      | Shared u =>
          match ms with
          | [::] => Raise IndexError
          | m :: mr => b <~ f m s u ;; bs <~ pm_loop f r mr (Shared u) ;; Ok (b :: bs)
          end
      | PerState [::] => Raise IndexError
      | PerState (u :: ur) =>
          match ms with
          | [::] => Raise IndexError
          | m :: mr => b <~ f m s u ;; bs <~ pm_loop f r mr (PerState ur) ;; Ok (b :: bs)
          end
      end
  end.

(** composite.py:478-492  CompositeProcessModel.evaluate. *)
Definition cpm_eval (ms : seq pmodel) (x : state) (u : cinput) (dt : DT) : result state :=
  match x with
  | Leaf _ _ _ => Raise TypeError
  | Comp l t i => l' <~ pm_loop (fun m s u => pm_eval m s u dt) l ms u ;; Ok (Comp l' t i)
  end.

(** composite.py:494-508  CompositeProcessModel.jacobian. *)
Definition cpm_jac (ms : seq pmodel) (x : state) (u : cinput) (dt : DT) : result (arr R) :=
  match x with
  | Leaf _ _ _ => Raise TypeError
  | Comp l t i => bs <~ pm_loop (fun m s u => pm_jac m s u dt) l ms u ;; Ok (block_diag bs)
  end.

(** composite.py:510-524  CompositeProcessModel.covariance. *)
Definition cpm_cov (ms : seq pmodel) (x : state) (u : cinput) (dt : DT) : result (arr R) :=
  match x with
  | Leaf _ _ _ => Raise TypeError
  | Comp l t i => bs <~ pm_loop (fun m s u => pm_cov m s u dt) l ms u ;; Ok (block_diag bs)
  end.
End PModels.

Section MModels.
Variable Y : Type.      (* value returned by evaluate: array or None *)
Record mmodel : Type := MModel {
  mm_eval : state -> result Y;
  mm_jac  : state -> result (arr R);
  mm_cov  : state -> result (arr R)
}.

(** composite.py:554-555, 557-563, 565-567 CompositeMeasurementModel. *)
Definition cmm_eval (m : mmodel) (i : I) (l : seq state) : result Y :=
  s <~ get_state_by_id l i ;; mm_eval m s.
Definition cmm_jac (m : mmodel) (i : I) (l : seq state) : result (arr R) :=
  s <~ get_state_by_id l i ;;
  j <~ mm_jac m s ;;
  slc <~ get_slice_by_id l i ;;
  setblock (azeros R (nrow j) (sumn (map s_dof l))) (0, nrow j) slc j.
Definition cmm_cov (m : mmodel) (i : I) (l : seq state) : result (arr R) :=
  s <~ get_state_by_id l i ;; mm_cov m s.
End MModels.

End Composite.

(** VectorState as a leaf: states.py:21-53 (value = 1-D array). *)
Section VectorLeaf.
Variable R : ringType.
Local Open Scope ring_scope.

(** states.py:36-42  plus: sizes must agree, else ValueError. *)
Definition vec_plus (v dx : seq R) : result (seq R) :=
  if size dx == size v then Ok [seq p.1 + p.2 | p <- zip v dx] else Raise ValueError.

(** states.py:44-46  minus: numpy broadcasting of 1-D arrays, then reshape to
    self's shape (ValueError when the broadcast enlarged it). *)
Definition vec_minus (v w : seq R) : result (seq R) :=
  if size w == size v then Ok [seq p.1 - p.2 | p <- zip v w]
  else if size w == 1%N then Ok [seq a - nth 0 w 0 | a <- v]
  else Raise ValueError.

(** states.py:48-52  both Jacobians are np.identity(dof). *)
Definition vec_ops : leafops R (seq R) :=
  LeafOps (fun v => size v) vec_plus vec_minus
          (fun v _ => Ok (aident R (size v))) (fun v _ => Ok (aident R (size v))).
End VectorLeaf.
