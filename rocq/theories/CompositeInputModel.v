(** Model of CompositeInput (navlie/composite.py:348-442) and VectorInput
    (navlie/lib/states.py:676-760), and of the value accessors of CompositeState.

    Leaves are any non-composite Input: value type [L], with its dof and plus.
    Composite inputs nest to any depth. *)
From mathcomp Require Import all_ssreflect all_algebra.
From Verif Require Import Base CompositeModel.
Set Implicit Arguments.
Unset Strict Implicit.
Unset Printing Implicit Defensive.

Section CompositeInput.
Variable R : ringType.          (* scalars *)
Variable T : Type.              (* time stamps *)
Variable I : eqType.            (* ids *)
Variable L : Type.              (* values of leaf inputs *)
(** interface of a leaf Input, types.py:10-45 *)
Record inops := InOps { in_dof : L -> nat; in_plus : L -> seq R -> result L }.
Variable ops : inops.

(** an Input object.  CompositeInput.__init__ (composite.py:354-355) does not call Input.__init__,
    so its state_id attribute is unset ([None]) until the user assigns one. *)
Inductive input : Type :=
| ILeaf (v : L) (stamp : option T) (iid : I)
| IComp (subs : seq input) (iid : option I).

(** composite.py:357-359 dof *)
Fixpoint i_dof (u : input) : nat :=
  match u with ILeaf v _ _ => in_dof ops v | IComp l _ => sumn (map i_dof l) end.
(** composite.py:361-363 stamp: that of the first input *)
Fixpoint i_stamp (u : input) : result (option T) :=
  match u with
  | ILeaf _ t _ => Ok t
  | IComp l _ => if l is x :: _ then i_stamp x else Raise IndexError
  end.
(** reading x.state_id *)
Definition i_id (u : input) : result I :=
  match u with ILeaf _ _ i => Ok i | IComp _ (Some i) => Ok i | IComp _ None => Raise AttributeError end.

(** composite.py:365-369 get_index_by_id: the list of all ids is built first *)
Definition ci_index_by_id (l : seq input) (i : I) : result nat :=
  ids <~ mapM i_id l ;;
  if i \in ids then Ok (index i ids) else Raise ValueError.
(** composite.py:371-375 add_input; 377-382 remove_input_by_id; 384-389 get_input_by_id *)
Definition ci_add (l : seq input) (u : input) : seq input := rcons l u.
Definition ci_remove_by_id (l : seq input) (i : I) : result (seq input) :=
  idx <~ ci_index_by_id l i ;; Ok (pop l idx).
Definition ci_get_by_id (l : seq input) (i : I) : result input :=
  idx <~ ci_index_by_id l i ;; py_nth l idx.
(** composite.py:391-403 get_dof_by_id, get_stamp_by_id *)
Definition ci_dof_by_id (l : seq input) (i : I) : result nat := rmap i_dof (ci_get_by_id l i).
Definition ci_stamp_by_id (l : seq input) (i : I) : result (option T) := u <~ ci_get_by_id l i ;; i_stamp u.
(** assignment to x.stamp: on a composite input stamp is a property without setter *)
Definition i_set_stamp (t : option T) (u : input) : result input :=
  match u with ILeaf v _ i => Ok (ILeaf v t i) | IComp _ _ => Raise AttributeError end.
(** composite.py:405-410 set_stamp_by_id; 412-417 set_input_by_id *)
Definition ci_set_stamp_by_id (l : seq input) (t : option T) (i : I) : result (seq input) :=
  idx <~ ci_index_by_id l i ;; u <~ py_nth l idx ;; u' <~ i_set_stamp t u ;; py_set l idx u'.
Definition ci_set_by_id (l : seq input) (u : input) (i : I) : result (seq input) :=
  idx <~ ci_index_by_id l i ;; py_set l idx u.
(** composite.py:419-424 set_stamp_for_all: in place, so the inputs before an offending one are already
    changed when it raises: returns the list afterwards and the exception, if any *)
Fixpoint ci_set_stamp_for_all (l : seq input) (t : option T) : seq input * option exn :=
  match l with
  | [::] => ([::], None)
  | u :: r => match i_set_stamp t u with
              | Ok u' => let p := ci_set_stamp_for_all r t in (u' :: p.1, p.2)
              | Raise e => (u :: r, Some e)
              end
  end.
(** composite.py:432-433 copy: ids of composite inputs are lost, at every depth *)
Fixpoint i_copy (u : input) : input :=
  match u with ILeaf v t i => ILeaf v t i | IComp l _ => IComp (map i_copy l) None end.
(** composite.py:435-442 plus; [ILeaf] case: plus of the leaf's own class, which keeps stamp and id *)
Fixpoint i_plus (u : input) (w : seq R) : result input :=
  match u with
  | ILeaf v t i => rmap (fun v' => ILeaf v' t i) (in_plus ops v w)
  | IComp l _ =>
      rmap (fun l' => IComp l' None)
        ((fix go (l : seq input) (temp : seq R) : result (seq input) :=
            match l with
            | [::] => Ok [::]
            | x :: r => x' <~ i_plus x (take (i_dof x) temp) ;; r' <~ go r (drop (i_dof x) temp) ;; Ok (x' :: r')
            end) l w)
  end.
End CompositeInput.

(** *** VectorInput *)
Section VectorInput.
Variable R : ringType.
Local Open Scope ring_scope.
(** states.py:719-732 plus: numpy addition of 1-D arrays, then reshape to the original size *)
Definition vin_plus (v w : seq R) : result (seq R) :=
  if size w == size v then Ok [seq p.1 + p.2 | p <- zip v w]
  else if size w == 1%N then Ok [seq a + nth 0 w 0 | a <- v]
  else Raise ValueError.
(** states.py:712-713: dof is the size of the value *)
Definition vin_ops : inops R (seq R) := InOps (fun v => size v) vin_plus.
End VectorInput.
