(** Measurement models of two named substates of a CompositeState (navlie/lib/models.py):
    RangePoseToPose, CameraProjection and PointRelativePositionSLAM. *)
From mathcomp Require Import all_ssreflect all_algebra.
From Verif Require Import Base CompositeModel ModelsModel.
Set Implicit Arguments.
Unset Strict Implicit.
Unset Printing Implicit Defensive.
Local Open Scope ring_scope.

Section Pair.
Variable R : ringType.
Variables (T : Type) (I : eqType) (L : Type).
Variable ops : leafops R L.
Notation state := (state T I L).
(** what the model computes from the two substates: the measurement, and the two blocks of
    its Jacobian *)
Variable f : state -> state -> result (seq R).
Variable J : state -> state -> result (arr R * arr R).

(** evaluate: RangePoseToPose, models.py:826-836; CameraProjection, 619-622;
    PointRelativePositionSLAM, 521-529 *)
Definition pair_eval (id1 id2 : I) (l : seq state) : result (seq R) :=
  s1 <~ get_state_by_id l id1 ;; s2 <~ get_state_by_id l id2 ;; f s1 s2.

(** {id1: b1, id2: b2}, also d = {}; d[id1] = b1; d[id2] = b2: one entry when the keys are equal *)
Definition dict2 (id1 : I) (b1 : arr R) (id2 : I) (b2 : arr R) : seq (I * arr R) :=
  if id1 == id2 then [:: (id1, b2)] else [:: (id1, b1); (id2, b2)].

(** jacobian of RangePoseToPose, models.py:838-880, and of CameraProjection, 624-650 *)
Definition pair_jac (id1 id2 : I) (l : seq state) : result (arr R) :=
  s1 <~ get_state_by_id l id1 ;; s2 <~ get_state_by_id l id2 ;; b <~ J s1 s2 ;;
  jacobian_from_blocks ops l (dict2 id1 b.1 id2 b.2).

(** jacobian of PointRelativePositionSLAM, models.py:531-560: the blocks are given to the ids
    of the first two substates (556-559), not to the ids of the pose and of the landmark *)
Definition slam_full_jac (id1 id2 : I) (l : seq state) : result (arr R) :=
  s1 <~ get_state_by_id l id1 ;; s2 <~ get_state_by_id l id2 ;; b <~ J s1 s2 ;;
  k0 <~ py_nth (map (@s_id T I L) l) 0 ;; k1 <~ py_nth (map (@s_id T I L) l) 1 ;;
  jacobian_from_blocks ops l (dict2 k0 b.1 k1 b.2).
End Pair.

(** *** The leaves: a pose of either of two kinds, or a pose and a landmark (a VectorState) *)
Section Leaves.
Variable R : rcfType.
Definition vec_seq n (v : 'cV[R]_n) : seq R := [seq v i 0 | i <- enum 'I_n].
Definition seq_vec n (s : seq R) : 'cV[R]_n := \col_i nth 0 s i.
Definition mat_arr m n (M : 'M[R]_(m, n)) : arr R :=
  Arr m n (fun i j => match insub i, insub j with Some i, Some j => M i j | _, _ => 0 end).

Variables (d1 d2 : nat) (X1 X2 : Type).
Variables (plus1 : X1 -> 'cV[R]_d1 -> X1) (plus2 : X2 -> 'cV[R]_d2 -> X2).
(** The two kinds of leaf: dof and plus.  minus and its Jacobians are not used by these models. *)
Definition two_ops : leafops R (X1 + X2) := LeafOps
  (fun v => if v is inl _ then d1 else d2)
  (fun v dx => match v with
     | inl x => if size dx == d1 then Ok (inl (plus1 x (seq_vec d1 dx))) else Raise ValueError
     | inr x => if size dx == d2 then Ok (inr (plus2 x (seq_vec d2 dx))) else Raise ValueError end)
  (fun _ _ => Raise NotImplementedErr) (fun _ _ => Raise NotImplementedErr) (fun _ _ => Raise NotImplementedErr).

Variables (T : Type) (I : eqType).
Notation state := (state T I (X1 + X2)).
(** a model g of one leaf of each kind, as a model of two substates *)
Definition two_f m (g : X1 -> X2 -> result 'cV[R]_m) (s1 s2 : state) : result (seq R) :=
  match s1, s2 with
  | Leaf (inl x1) _ _, Leaf (inr x2) _ _ => rmap (@vec_seq m) (g x1 x2)
  | _, _ => Raise AttributeError
  end.
Definition two_J m (g : X1 -> X2 -> result ('M[R]_(m, d1) * 'M[R]_(m, d2))) (s1 s2 : state) : result (arr R * arr R) :=
  match s1, s2 with
  | Leaf (inl x1) _ _, Leaf (inr x2) _ _ => rmap (fun b => (mat_arr b.1, mat_arr b.2)) (g x1 x2)
  | _, _ => Raise AttributeError
  end.
End Leaves.
