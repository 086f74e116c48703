(** The real numbers of Coq's standard library as a mathcomp archimedean real closed field, so
    that the theorems over arbitrary ordered fields apply to them (with sin, cos, ...).
    Axioms used: those of Coq.Reals, functional extensionality, and epsilon (for the choice
    structure of mathcomp, which every mathcomp field must carry). *)
From Coq Require Import Reals Lra Epsilon FunctionalExtensionality.
From mathcomp Require Import all_ssreflect all_algebra.
Set Implicit Arguments.
Unset Strict Implicit.
Unset Printing Implicit Defensive.
Import GRing.Theory Num.Theory.

Definition Reqb (x y : R) : bool := if Req_EM_T x y then true else false.
Lemma ReqbP : Equality.axiom Reqb.
Proof. by move=> x y; rewrite /Reqb; case: Req_EM_T => h; constructor. Qed.
Definition R_eqMixin := EqMixin ReqbP.
Canonical R_eqType := EqType R R_eqMixin.

Definition pickR (P : pred R) (n : nat) : option R :=
  let x := epsilon (inhabits R0) (fun x => P x) in if P x then Some x else None.
Lemma pickR_some P n x : pickR P n = Some x -> P x.
Proof. by rewrite /pickR; case: ifP => // Px [<-]. Qed.
Lemma pickR_ex (P : pred R) : (exists x, P x) -> exists n, pickR P n.
Proof. by move=> /(epsilon_spec (inhabits R0) (fun x => P x)) h; exists 0; rewrite /pickR h. Qed.
Lemma pickR_ext (P Q : pred R) : P =1 Q -> pickR P =1 pickR Q.
Proof. by move=> /functional_extensionality ->. Qed.
Definition R_choiceMixin : choiceMixin R := Choice.Mixin pickR_some pickR_ex pickR_ext.
Canonical R_choiceType := ChoiceType R R_choiceMixin.

Lemma R_addA x y z : Rplus x (Rplus y z) = Rplus (Rplus x y) z. Proof. by rewrite Rplus_assoc. Qed.
Definition R_zmodMixin := @ZmodMixin R R0 Ropp Rplus R_addA Rplus_comm Rplus_0_l Rplus_opp_l.
Canonical R_zmodType := ZmodType R R_zmodMixin.
Lemma R_mulA x y z : Rmult x (Rmult y z) = Rmult (Rmult x y) z. Proof. by rewrite Rmult_assoc. Qed.
Lemma R_one : R1 != R0 :> R. Proof. by apply/eqP; exact: R1_neq_R0. Qed.
Definition R_ringMixin := @ComRingMixin R_zmodType R1 Rmult R_mulA Rmult_comm Rmult_1_l Rmult_plus_distr_r R_one.
Canonical R_ringType := RingType R R_ringMixin.
Canonical R_comRingType := ComRingType R Rmult_comm.

Definition Rinvx (x : R) : R := if x == R0 then R0 else Rinv x.
Lemma R_mulV (x : R) : x != R0 -> Rmult (Rinvx x) x = R1.
Proof. by move=> h; rewrite /Rinvx (negbTE h) Rinv_l //; apply/eqP. Qed.
Lemma R_inv0 : Rinvx R0 = R0. Proof. by rewrite /Rinvx eqxx. Qed.
Definition R_unitMixin := FieldUnitMixin R_mulV R_inv0.
Canonical R_unitRingType := UnitRingType R R_unitMixin.
Canonical R_comUnitRingType := [comUnitRingType of R].
Lemma R_field : GRing.Field.mixin_of R_unitRingType. Proof. by []. Qed.
Canonical R_idomainType := IdomainType R (FieldIdomainMixin R_field).
Canonical R_fieldType := FieldType R R_field.

Definition Rleb_ (x y : R) : bool := if Rle_dec x y then true else false.
Definition Rltb_ (x y : R) : bool := if Rlt_dec x y then true else false.
Lemma RlebP x y : reflect (Rle x y) (Rleb_ x y). Proof. by rewrite /Rleb_; case: Rle_dec => h; constructor. Qed.
Lemma RltbP x y : reflect (Rlt x y) (Rltb_ x y). Proof. by rewrite /Rltb_; case: Rlt_dec => h; constructor. Qed.
Lemma R_le0D x y : Rleb_ R0 x -> Rleb_ R0 y -> Rleb_ R0 (Rplus x y).
Proof. by move=> /RlebP h1 /RlebP h2; apply/RlebP; lra. Qed.
Lemma R_le0M x y : Rleb_ R0 x -> Rleb_ R0 y -> Rleb_ R0 (Rmult x y).
Proof. by move=> /RlebP h1 /RlebP h2; apply/RlebP; exact: Rmult_le_pos. Qed.
Lemma R_le0_anti x : Rleb_ R0 x -> Rleb_ x R0 -> x = R0.
Proof. by move=> /RlebP h1 /RlebP h2; lra. Qed.
Lemma R_sub_ge0 x y : Rleb_ R0 (Rplus y (Ropp x)) = Rleb_ x y.
Proof. by apply/RlebP/RlebP => h; lra. Qed.
Lemma R_le0_total x : Rleb_ R0 x || Rleb_ x R0.
Proof. by apply/orP; case: (Rle_lt_dec R0 x) => h; [left|right]; apply/RlebP; lra. Qed.
Lemma R_normN x : Rabs (Ropp x) = Rabs x. Proof. exact: Rabs_Ropp. Qed.
Lemma R_ge0_norm x : Rleb_ R0 x -> Rabs x = x.
Proof. by move=> /RlebP h; rewrite Rabs_pos_eq. Qed.
Lemma R_ltE x y : Rltb_ x y = (y != x) && Rleb_ x y.
Proof.
apply/RltbP/andP => [h|[/eqP h /RlebP h']]; last by case: h' => // h''; case: h.
by split; [apply/eqP; lra|apply/RlebP; lra].
Qed.
Lemma R_le_total : total Rleb_.
Proof. by move=> x y; apply/orP; case: (Rle_lt_dec x y) => h; [left|right]; apply/RlebP; lra. Qed.
Definition R_leMixin : realLeMixin R_idomainType := RealLeMixin R_le0D R_le0M R_le0_anti R_sub_ge0 R_le0_total R_normN R_ge0_norm R_ltE.
Canonical R_porderType := POrderType ring_display R R_leMixin.
Canonical R_latticeType := LatticeType R R_leMixin.
Canonical R_distrLatticeType := DistrLatticeType R R_leMixin.
Canonical R_orderType := OrderType R R_le_total.
Canonical R_numDomainType := NumDomainType R R_leMixin.
Canonical R_normedZmodType := NormedZmodType R R R_leMixin.
Canonical R_numFieldType := [numFieldType of R].
Canonical R_realDomainType := [realDomainType of R].
Canonical R_realFieldType := [realFieldType of R].

(** the operations and relations are those of the standard library *)
Local Open Scope ring_scope.
Lemma RaddE (x y : R) : x + y = Rplus x y. Proof. by []. Qed.
Lemma RmulE (x y : R) : x * y = Rmult x y. Proof. by []. Qed.
Lemma RoppE (x : R) : - x = Ropp x. Proof. by []. Qed.
Lemma R0E : 0 = R0 :> R. Proof. by []. Qed.
Lemma R1E : 1 = R1 :> R. Proof. by []. Qed.
Lemma RinvE (x : R) : x <> R0 -> x^-1 = Rinv x.
Proof. by move=> /eqP h; rewrite /GRing.inv /= /Rinvx (negbTE h). Qed.
Lemma RleP (x y : R) : reflect (Rle x y) (x <= y). Proof. exact: RlebP. Qed.
Lemma RltP (x y : R) : reflect (Rlt x y) (x < y). Proof. exact: RltbP. Qed.
Lemma RnormE (x : R) : `|x| = Rabs x. Proof. by []. Qed.
Lemma RnatE n : n%:R = INR n :> R.
Proof. by elim: n => // n IH; rewrite S_INR -[n.+1]addn1 natrD IH. Qed.

Fact R_archi : Num.archimedean_axiom [numDomainType of R].
Proof.
move=> x; exists (Z.to_nat (up `|x|)); rewrite RnatE; apply/RltP.
have [h1 h2] := archimed `|x|; have h0 : Rle R0 `|x| by exact: Rabs_pos.
rewrite INR_IZR_INZ Z2Nat.id //; apply: le_IZR; lra.
Qed.
Canonical R_archiFieldType := ArchiFieldType R R_archi.

Lemma horner_cont (p : {poly R}) : continuity (fun x => p.[x]).
Proof.
elim/poly_ind: p => [|p c IH] x.
  have -> : (fun x : R => (0 : {poly R}).[x]) = (fun=> R0) by apply: functional_extensionality => y; rewrite hornerE.
  by apply: continuity_pt_const => ? ?.
have -> : (fun x => (p * 'X + c%:P).[x]) = (fun x => Rplus (Rmult p.[x] x) c) by apply: functional_extensionality => y; rewrite !hornerE.
apply: continuity_pt_plus; last by apply: continuity_pt_const => ? ?.
by apply: continuity_pt_mult; [exact: IH|exact: derivable_continuous_pt (derivable_pt_id x)].
Qed.
Fact R_rcf : Num.real_closed_axiom [numDomainType of R].
Proof.
move=> p a b /RleP ab /andP[/RleP pa /RleP pb].
have [|z [[z1 z2] z3]] := IVT_cor (fun x => p.[x]) a b (@horner_cont p) ab.
  have := Rmult_le_compat_r p.[b] p.[a] R0 pb pa; rewrite Rmult_0_l; exact.
by exists z; [apply/andP; split; apply/RleP|apply/eqP].
Qed.
Canonical R_rcfType := RcfType R R_rcf.
Lemma RsqrtE (x : R) : 0 <= x -> Num.sqrt x = R_sqrt.sqrt x.
Proof.
move=> /RleP h; have s0 : Rle R0 (R_sqrt.sqrt x) by exact: sqrt_pos.
rewrite -{1}(R_sqrt.sqrt_sqrt x h) -[Rmult _ _]/(R_sqrt.sqrt x * R_sqrt.sqrt x) -expr2 sqrtr_sqr.
by rewrite ger0_norm //; apply/RleP.
Qed.
