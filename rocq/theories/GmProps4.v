(** C42: a component without a Jacobian. *)
From Coq Require Import Reals.
From mathcomp Require Import ssreflect ssrfun ssrbool eqtype ssrnat seq.
From Verif Require Import Base GmModel GmProps GmProps2.
Set Implicit Arguments.
Unset Strict Implicit.
Unset Printing Implicit Defensive.
Local Open Scope R_scope.

Lemma all_some_missing T (s : seq (option T)) k d : (k < size s)%N -> nth (Some d) s k = None -> all_some s = None.
Proof.
elim: s k => [//|x s IH] [|k] /= lk e; first by rewrite e.
by case: x => // x; rewrite (IH k).
Qed.
(** C42: when a component other than the first has no Jacobian although the first has one, all three mixtures raise TypeError:
    the component is not silently left out *)
Theorem C42_missing_jacobian_raises (alphas drho : seq R) (es : seq earr) e nl kd (js : seq (option jac)) j0 k :
  es <> [::] -> nth None js 0 = Some j0 -> (k < size js)%N -> nth (Some j0) js k = None ->
  [/\ sum_mixture_jac alphas es e js = Raise TypeError, max_sum_jac alphas es nl kd js = Raise TypeError & hsm_jac drho js = Raise TypeError].
Proof.
move=> h0 hj lk hk; have ha := all_some_missing lk hk; split.
- rewrite /sum_mixture_jac; case: es h0 => [//|e1 es _]; by rewrite /= hj ha.
- by rewrite /max_sum_jac hj ha.
- by rewrite /hsm_jac hj ha.
Qed.
(** C42, a promise not kept: when the first component has no Jacobian for a state, none is returned for it, whatever the others have *)
Theorem C42_first_without_jacobian_refuted (alphas drho : seq R) (es : seq earr) e nl kd (js : seq (option jac)) :
  es <> [::] ->
  [/\ sum_mixture_jac alphas es e (None :: js) = Ok None, max_sum_jac alphas es nl kd (None :: js) = Ok None & hsm_jac drho (None :: js) = Ok None].
Proof. by move=> h0; split=> //; rewrite /sum_mixture_jac; case: es h0. Qed.
Example C42_ex_missing : let js := [:: Some (Jac 1 [:: [:: 1]]); None] in (1 < size js)%N /\ nth (Some (Jac 1 [:: [:: 1]])) js 1 = None.
Proof. by []. Qed.
Print Assumptions C42_missing_jacobian_raises.
