(** C66: SO2State from a number; the Jacobian blocks of SE2State and SE3State. *)
From mathcomp Require Import all_ssreflect all_algebra.
From Verif Require Import Base Tac LieModel LieProps.
Set Implicit Arguments.
Unset Strict Implicit.
Unset Printing Implicit Defensive.
Import Order.Theory GRing.Theory Num.Theory.
Local Open Scope ring_scope.

(** a number given to SO2State is the angle of the rotation *)
Theorem C66_so2_from_number (R : realFieldType) (S I : Type) (Exp : 'cV[R]_1 -> 'M[R]_2) (x : R) (t : S) (i : I) dir :
  so2_init Exp (PNum x) t i dir = Ok (LState (Exp (const_mx x)) t i dir).
Proof.
rewrite /so2_init /lie_init eqxx; congr (Ok (LState (Exp _) _ _ _)).
apply/matrixP => a b; rewrite !mxE ord1 /ravel enum_ordS /= !mxE.
by [].
Qed.

Section Blocks.
Variable R : realFieldType.
(** SE2: one column of attitude, then two of position; SE3: three and three.  Blocks that are left out
    contribute nothing. *)
Theorem C66_blocks_se2 m (A P : option (arr R)) : fits m 1 A -> fits m 2 P -> A <> None \/ P <> None ->
  exists J, [/\ se2_from_blocks A P = Ok J, nrow J = m /\ ncol J = 3%N &
    forall theta x y r, aapply J [:: theta; x; y] r = oapply_ A [:: theta] r + oapply_ P [:: x; y] r].
Proof.
move=> fA fP h; have [J [h1 h2 h3]] := C66_blocks fA fP h.
by exists J; split=> // th x y r; have := h3 [:: th] [:: x; y] r erefl.
Qed.
Theorem C66_blocks_se3 m (A P : option (arr R)) : fits m 3 A -> fits m 3 P -> A <> None \/ P <> None ->
  exists J, [/\ se3_from_blocks A P = Ok J, nrow J = m /\ ncol J = 6%N &
    forall u v r, size u = 3%N -> aapply J (u ++ v) r = oapply_ A u r + oapply_ P v r].
Proof. by move=> fA fP h; have [J [h1 h2 h3]] := C66_blocks fA fP h; exists J. Qed.
Example C66_blocks_instance : fits 2 2 (Some (Arr 2 2 (fun i j => (i + j)%:R : R))) /\ fits 2 1 (None : option (arr R)).
Proof. by []. Qed.
End Blocks.
Print Assumptions C66_so2_from_number.
Print Assumptions C66_blocks_se2.
