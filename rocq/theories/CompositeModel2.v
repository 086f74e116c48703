(** The value accessors of CompositeState (navlie/composite.py:184-189, 226-231, 240-244), and VectorState with its
    [dof] as what it is in the code: an attribute stored when the object is built (navlie/lib/states.py:26-34,
    navlie/types.py:84-94), not recomputed when [value] is assigned. *)
From mathcomp Require Import all_ssreflect all_algebra.
From Verif Require Import Base CompositeModel.
Set Implicit Arguments.
Unset Strict Implicit.
Unset Printing Implicit Defensive.

Section Values.
Variables (T : Type) (I : eqType) (L : Type).
Notation state := (state T I L).
(** state.value: the leaf's value, or the list of substates of a composite *)
Inductive pyvalue := VLeaf of L | VList of seq state.
Definition s_value (s : state) : pyvalue := match s with Leaf v _ _ => VLeaf v | Comp l _ _ => VList l end.
(** composite.py:184-189 get_value_by_id *)
Definition get_value_by_id (l : seq state) (i : I) : result pyvalue := rmap s_value (get_state_by_id l i).
(** composite.py:226-231 set_value_by_id.  Assigning a list to a leaf's value or an array to a composite's is not modelled
    (TypeError stands for the failures that follow).  [assign old new]: what the leaf object holds after the assignment *)
Variable assign : L -> L -> L.
Definition set_value (v : pyvalue) (s : state) : result state :=
  match s, v with
  | Leaf w t i, VLeaf v => Ok (Leaf (assign w v) t i)
  | Comp _ t i, VList l => Ok (Comp l t i)
  | _, _ => Raise TypeError
  end.
Definition set_value_by_id (l : seq state) (v : pyvalue) (i : I) : result (seq state) :=
  idx <~ get_index_by_id l i ;; s <~ py_nth l idx ;; s' <~ set_value v s ;; py_set l idx s'.
End Values.
Arguments VLeaf {T I L}.
Arguments VList {T I L}.

Section Stored.
Variable R : ringType.
Local Open Scope ring_scope.
(** a VectorState object: stored dof and current value *)
Record vobj := VObj { vo_dof : nat; vo_val : seq R }.
(** states.py:26-34: the constructor *)
Definition vnew (v : seq R) : vobj := VObj (size v) v.
(** states.py:54-55 copy: rebuilds, so dof is recomputed *)
Definition vcopy (x : vobj) : vobj := vnew (vo_val x).
(** numpy addition of 1-D arrays *)
Definition np_add (v w : seq R) : result (seq R) :=
  if size w == size v then Ok [seq p.1 + p.2 | p <- zip v w]
  else if size w == 1%N then Ok [seq a + nth 0 w 0 | a <- v]
  else if size v == 1%N then Ok [seq nth 0 v 0 + b | b <- w]
  else Raise ValueError.
(** states.py:36-42 plus: the size is checked against the stored dof; the result is the copy with a new value *)
Definition vo_plus (x : vobj) (dx : seq R) : result vobj :=
  if size dx == vo_dof x then rmap (VObj (vo_dof (vcopy x))) (np_add (vo_val x) dx) else Raise ValueError.
(** states.py:44-52 *)
Definition vo_ops : leafops R vobj :=
  LeafOps vo_dof vo_plus (fun x y => vec_minus (vo_val x) (vo_val y))
    (fun x _ => Ok (aident R (vo_dof x))) (fun x _ => Ok (aident R (vo_dof x))).
(** x.value = v *)
Definition vo_assign (x y : vobj) : vobj := VObj (vo_dof x) (vo_val y).
(** CompositeState.copy (composite.py:246-253) over such leaves *)
Fixpoint vo_copy (T : Type) (I : eqType) (s : state T I vobj) : state T I vobj :=
  match s with Leaf v t i => Leaf (vcopy v) t i | Comp l t i => Comp (map (@vo_copy T I) l) t i end.
End Stored.
