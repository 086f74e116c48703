(** C77: where the covariance of RelativeBodyFrameVelocity is right. *)
From mathcomp Require Import all_ssreflect all_algebra.
From Verif Require Import Base Tac LinAlg Deriv EkfModel PreintModel PreintProps ModelsModel ProcessProps.
Set Implicit Arguments.
Unset Strict Implicit.
Unset Printing Implicit Defensive.
Import Order.Theory GRing.Theory Num.Theory.
Local Open Scope ring_scope.

Section C77.
Variable R : realFieldType.
Variables k d : nat.
Variables (Exp : 'cV[R]_d -> 'M[R]_k) (Ad : 'M[R]_k -> 'M[R]_d) (ginv : 'M[R]_k -> 'M[R]_k).
Variables (Jl : 'cV[R]_d -> 'M[R]_d) (hat : 'cV[R]_d -> 'M[R]_k) (G : 'M[R]_k -> Prop).
Hypothesis laws : lie_laws Exp Ad ginv Jl hat G.
(** [L] is the derivative of the propagated state with respect to one input, as a right perturbation *)
Definition noise_jacobian (f : 'cV[R]_d -> 'M[R]_k) (L : 'M[R]_d) : Prop := forall w, exists D,
  is_mderiv (fun s => f (s *: w)) D /\ is_mderiv (fun s => gplus Exp DRight (f 0) (s *: (L *m w))) D.

(** with noise on the second input only, the covariance is that of the second input for every state and input *)
Theorem C77_covariance_second_input X u1 u2 dt (Q2 : 'M[R]_d) : exists L2,
  relvel_cov Exp Ad Jl 0 Q2 DRight X u1 u2 dt = Ok (L2 *m Q2 *m L2^T) /\ noise_jacobian (fun w => relvel_eval Exp X u1 (u2 + w) dt) L2.
Proof.
exists (relvel_L2 Jl u1 u2 dt); split; first by rewrite /= mulmx0 mul0mx add0r.
by move=> w; rewrite addr0; exact: (C77_noise2 laws).
Qed.
(** with noise on both inputs, it is the right one when T exp(dt u2) is its own inverse, in particular the identity *)
Theorem C77_covariance_at_identity X u1 u2 dt (Q1 Q2 : 'M[R]_d) : G X -> ginv (X *m Exp (dt *: u2)) = X *m Exp (dt *: u2) -> exists L1 L2,
  [/\ relvel_cov Exp Ad Jl Q1 Q2 DRight X u1 u2 dt = Ok (L1 *m Q1 *m L1^T + L2 *m Q2 *m L2^T),
      noise_jacobian (fun w => relvel_eval Exp X (u1 + w) u2 dt) L1 &
      noise_jacobian (fun w => relvel_eval Exp X u1 (u2 + w) dt) L2].
Proof.
move=> gX e; exists (- relvel_L1 Exp Ad Jl X u1 u2 dt), (relvel_L2 Jl u1 u2 dt); split.
- by rewrite /= linearN /= !(mulNmx, mulmxN) opprK.
- by move=> w; rewrite addr0; have := C77_noise1 laws u1 u2 dt w gX; rewrite e.
- by move=> w; rewrite addr0; exact: (C77_noise2 laws).
Qed.
(** in general the covariance treats the first input as if T exp(dt u2) were replaced by its inverse: it is the covariance of
    propagating any element Y with Y exp(dt u2) = (T exp(dt u2))^-1 *)
Theorem C77_covariance_of_inverse X Y u1 u2 dt (Q1 Q2 : 'M[R]_d) : G X -> G Y -> Y *m Exp (dt *: u2) = ginv (X *m Exp (dt *: u2)) -> exists L1 L2,
  [/\ relvel_cov Exp Ad Jl Q1 Q2 DRight X u1 u2 dt = Ok (L1 *m Q1 *m L1^T + L2 *m Q2 *m L2^T),
      noise_jacobian (fun w => relvel_eval Exp Y (u1 + w) u2 dt) L1 &
      noise_jacobian (fun w => relvel_eval Exp X u1 (u2 + w) dt) L2].
Proof.
move=> gX gY e; exists (- relvel_L1 Exp Ad Jl X u1 u2 dt), (relvel_L2 Jl u1 u2 dt); split.
- by rewrite /= linearN /= !(mulNmx, mulmxN) opprK.
- move=> w; rewrite addr0; have := C77_noise1 laws u1 u2 dt w gY; rewrite e /relvel_L1.
  have gl := ll_group laws; have gZ : G (X *m Exp (dt *: u2)) by apply: (gl_M gl) => //; exact: (gl_E gl).
  have -> // : ginv (ginv (X *m Exp (dt *: u2))) = X *m Exp (dt *: u2).
  by rewrite -[LHS]mul1mx -(gl_mulV gl gZ) -mulmxA (gl_mulV gl (gl_V gl gZ)) mulmx1.
- by move=> w; rewrite addr0; exact: (C77_noise2 laws).
Qed.
End C77.
(** the hypothesis of C77_covariance_at_identity is met, for a group that is not commutative *)
Example C77_ex_identity : let X := hmx 0 0 0 : 'M[rat]_3 in hG X /\ hinv (X *m hExp (1 *: 0)) = X *m hExp (1 *: 0).
Proof.
have lw := heisenberg_lie [realFieldType of rat]; have gl := ll_group lw.
have e : (hmx 0 0 0 : 'M[rat]_3) = 1%:M by rewrite -(gl_E0 gl) /hExp !mxE mulr0 mul0r addr0.
by split; [do 3 eexists|rewrite scaler0 (gl_E0 gl) mulmx1 e -[LHS]mul1mx (gl_mulV gl (gl_1 gl))].
Qed.
Print Assumptions C77_covariance_of_inverse.
