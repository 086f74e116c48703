(** Decision tactics: [zmod] for equalities in any abelian group (zmodType), by
    reflection.  No axioms, no plugin. *)
From mathcomp Require Import all_ssreflect all_algebra.
Set Implicit Arguments.
Unset Strict Implicit.
Unset Printing Implicit Defensive.
Import GRing.Theory.
Local Open Scope ring_scope.

Inductive zexp := ZA of nat | Z0 | ZAdd of zexp & zexp | ZOpp of zexp | ZMuln of zexp & nat.

Section Zmod.
Variable V : zmodType.

Fixpoint zeval (env : seq V) (e : zexp) : V :=
  match e with
  | ZA n => nth 0 env n
  | Z0 => 0
  | ZAdd a b => zeval env a + zeval env b
  | ZOpp a => - zeval env a
  | ZMuln a k => zeval env a *+ k
  end.

Fixpoint zcoef (e : zexp) (i : nat) : int :=
  match e with
  | ZA n => (n == i)%:Z
  | Z0 => 0
  | ZAdd a b => zcoef a i + zcoef b i
  | ZOpp a => - zcoef a i
  | ZMuln a k => zcoef a i * k%:Z
  end.

Lemma zevalE env e : zeval env e = \sum_(i < size env) env`_i *~ zcoef e i.
Proof.
elim: e => /= [n||a -> b ->|a ->|a -> k].
- case: (ltnP n (size env)) => h.
    rewrite (bigD1 (Ordinal h)) //= eqxx mulr1z big1 ?addr0 // => i /negP ne.
    case: eqP => [e|_]; last by rewrite mulr0z.
    by case: ne; apply/eqP/val_inj.
  rewrite nth_default // big1 // => i _.
  by case: eqP => [e|_]; rewrite ?mulr0z //; have := ltn_ord i; rewrite -e ltnNge h.
- by rewrite big1 // => i _; rewrite mulr0z.
- by rewrite -big_split; apply: eq_bigr => i _; rewrite mulrzDl.
- by rewrite -sumrN; apply: eq_bigr => i _; rewrite mulrNz.
- by rewrite -sumrMnl; apply: eq_bigr => i _; rewrite mulrzA pmulrn.
Qed.

Lemma zmod_sound env e1 e2 :
  all (fun i => zcoef e1 i == zcoef e2 i) (iota 0 (size env)) -> zeval env e1 = zeval env e2.
Proof.
move=> h; rewrite !zevalE; apply: eq_bigr => i _; congr (_ *~ _); apply/eqP.
by move/allP: h => /(_ i); rewrite mem_iota add0n ltn_ord => /(_ isT).
Qed.
End Zmod.

(** syntactic equality up to the choice of canonical structure paths *)
Ltac z_same x y :=
  first [ constr_eq x y
        | match x with ?f ?a => match y with ?g ?b => z_same f g; z_same a b end end
        | match type of x with
          | matrix _ _ _ => fail 1
          | GRing.Zmodule.sort _ => fail 1
          | GRing.Ring.sort _ => fail 1
          | Num.RealField.sort _ => fail 1
          | Num.RealDomain.sort _ => fail 1
          | nat => fail 1
          | ordinal _ => fail 1
          | _ -> _ => fail 1
          | forall _, _ => fail 1
          | _ => unify x y
          end ].
Ltac z_mem x env :=
  match env with
  | nil => constr:(false)
  | ?y :: ?r => let b := match constr:(Set) with _ => let _ := match constr:(Set) with _ => z_same x y end in constr:(true) | _ => z_mem x r end in b
  end.
Ltac z_idx x env :=
  match env with
  | ?y :: ?r => match constr:(Set) with
                | _ => let _ := match constr:(Set) with _ => z_same x y end in constr:(O)
                | _ => let n := z_idx x r in constr:(S n)
                end
  end.
Ltac z_env e env :=
  match e with
  | @GRing.add _ ?a ?b => let env := z_env a env in z_env b env
  | @GRing.opp _ ?a => z_env a env
  | @GRing.zero _ => env
  | @GRing.natmul _ ?a ?k => z_env a env
  | _ => let b := z_mem e env in match b with true => env | false => constr:(e :: env) end
  end.
Ltac z_exp e env :=
  match e with
  | @GRing.add _ ?a ?b => let a' := z_exp a env in let b' := z_exp b env in constr:(ZAdd a' b')
  | @GRing.opp _ ?a => let a' := z_exp a env in constr:(ZOpp a')
  | @GRing.zero _ => constr:(Z0)
  | @GRing.natmul _ ?a ?k => let a' := z_exp a env in constr:(ZMuln a' k)
  | _ => let n := z_idx e env in constr:(ZA n)
  end.
(** proves [l = r] in a zmodType when it follows from the abelian group laws *)
Ltac zmod :=
  match goal with
  | |- @eq ?T ?l ?r =>
      let env := z_env l (@nil T) in
      let env := z_env r env in
      let l' := z_exp l env in
      let r' := z_exp r env in
      exact: (@zmod_sound _ env l' r' erefl)
  end.

Example zmod_test (V : zmodType) (a b c : V) : a - (b - c) + b = c + a + 0.
Proof. zmod. Qed.
Example zmod_test2 (R : fieldType) n (a b c : 'M[R]_(n,n.+1)) (d : 'M_n) : a *+ 2 - (d *m b - c) + d *m b = c + a + a.
Proof. zmod. Qed.

(** [rng]: equalities in any commutative ring, by reflection into the standard
    library's polynomial normaliser (Coq.setoid_ring.Ring_polynom). *)
Require Import Coq.setoid_ring.Ring_polynom Coq.setoid_ring.Ring_theory Coq.setoid_ring.InitialRing.
Require Import Coq.ZArith.ZArith.

Inductive rexp := RA of positive | RC of nat | RAdd of rexp & rexp | RMul of rexp & rexp
  | ROpp of rexp | RPow of rexp & nat | RMuln of rexp & nat.

Section Rng.
Variable R : comRingType.

Fixpoint reval (env : seq R) (e : rexp) : R :=
  match e with
  | RA n => BinList.nth 0 n env
  | RC n => n%:R
  | RAdd a b => reval env a + reval env b
  | RMul a b => reval env a * reval env b
  | ROpp a => - reval env a
  | RPow a k => reval env a ^+ k
  | RMuln a k => reval env a *+ k
  end.

Fixpoint topE (e : rexp) : PExpr Z :=
  match e with
  | RA n => PEX _ n
  | RC n => PEc (Z.of_nat n)
  | RAdd a b => PEadd (topE a) (topE b)
  | RMul a b => PEmul (topE a) (topE b)
  | ROpp a => PEopp (topE a)
  | RPow a k => PEpow (topE a) (N.of_nat k)
  | RMuln a k => PEmul (topE a) (PEc (Z.of_nat k))
  end.

Let rsub (a b : R) := a - b.
Lemma rng_th : @ring_theory R 0 1 +%R *%R rsub -%R eq.
Proof.
split=> //; [exact: add0r | exact: addrC | exact: addrA | exact: mul1r | exact: mulrC
  | exact: mulrA | by move=> x y z; apply: mulrDl | exact: addrN].
Qed.
Let Rsth := Eqsth R.
Let Reqe := Eq_ext (@GRing.add R) (@GRing.mul R) (@GRing.opp R).
Let phi := gen_phiZ 0 1 +%R *%R (@GRing.opp R).
Let Rmorph : ring_morph 0 1 +%R *%R rsub -%R eq 0%Z 1%Z Z.add Z.mul Z.sub Z.opp Zeq_bool phi :=
  gen_phiZ_morph Rsth Reqe rng_th.
Let pe_eval := PEeval 0 1 +%R *%R rsub -%R phi id (pow_N 1 *%R).

Lemma phi_nat n : phi (Z.of_nat n) = n%:R.
Proof.
elim: n => [|n IH] //.
rewrite Nat2Z.inj_succ -Z.add_1_r (morph_add Rmorph) IH.
by rewrite (morph1 Rmorph) -addn1 natrD.
Qed.

Lemma topE_ok env e : pe_eval env (topE e) = reval env e.
Proof.
rewrite /pe_eval; elim: e => [n|n|a IHa b IHb|a IHa b IHb|a IHa|a IHa k|a IHa k] /=; rewrite ?IHa ?IHb //.
- exact: phi_nat.
- case: k => [|k] //=.
  elim: k => [|k IH] /=; first by rewrite expr1.
  rewrite exprS -IH; apply: (@pow_pos_succ R *%R eq Rsth _ (@mulrA R)).
- by rewrite phi_nat mulr_natr.
Qed.

Lemma rng_sound env e1 e2 :
  Peq Zeq_bool (norm_subst 0%Z 1%Z Z.add Z.mul Z.sub Z.opp Zeq_bool (triv_div 0%Z 1%Z Zeq_bool) ring_subst_niter nil (topE e1))
      (norm_subst 0%Z 1%Z Z.add Z.mul Z.sub Z.opp Zeq_bool (triv_div 0%Z 1%Z Zeq_bool) ring_subst_niter nil (topE e2)) = true ->
  reval env e1 = reval env e2.
Proof.
move=> h; rewrite -!topE_ok.
apply: (@ring_correct R 0 1 +%R *%R rsub -%R eq Rsth Reqe (Rth_ARth Rsth Reqe rng_th) Z 0%Z 1%Z Z.add Z.mul Z.sub Z.opp Zeq_bool phi Rmorph N id (pow_N 1 *%R) _ (triv_div 0%Z 1%Z Zeq_bool) _ ring_subst_niter env nil (topE e1) (topE e2) I h).
- by split.
- exact: triv_div_th Rsth Reqe (Rth_ARth Rsth Reqe rng_th) Rmorph.
Qed.
End Rng.

Ltac r_isnum k := match k with O => constr:(true) | S ?k' => r_isnum k' | _ => constr:(false) end.
Ltac r_atom e env := let b := z_mem e env in match b with true => env | false => constr:(e :: env) end.
Ltac r_env e env :=
  match e with
  | @GRing.add _ ?a ?b => let env := r_env a env in r_env b env
  | @GRing.mul _ ?a ?b => let env := r_env a env in r_env b env
  | @GRing.opp _ ?a => r_env a env
  | @GRing.zero _ => env
  | @GRing.one _ => env
  | @GRing.exp _ ?a ?k => let t := r_isnum k in match t with true => r_env a env | false => r_atom e env end
  | @GRing.natmul _ ?a ?k => let t := r_isnum k in match t with true => r_env a env | false => r_atom e env end
  | _ => r_atom e env
  end.
Ltac r_exp e env :=
  let atom := fun _ => let n := z_idx e env in let p := eval vm_compute in (Pos.of_succ_nat n) in constr:(RA p) in
  match e with
  | @GRing.add _ ?a ?b => let a' := r_exp a env in let b' := r_exp b env in constr:(RAdd a' b')
  | @GRing.mul _ ?a ?b => let a' := r_exp a env in let b' := r_exp b env in constr:(RMul a' b')
  | @GRing.opp _ ?a => let a' := r_exp a env in constr:(ROpp a')
  | @GRing.zero _ => constr:(RC 0)
  | @GRing.one _ => constr:(RC 1)
  | @GRing.natmul _ (@GRing.one _) ?k =>
      let t := r_isnum k in match t with true => constr:(RC k) | false => atom tt end
  | @GRing.exp _ ?a ?k =>
      let t := r_isnum k in match t with true => let a' := r_exp a env in constr:(RPow a' k) | false => atom tt end
  | @GRing.natmul _ ?a ?k =>
      let t := r_isnum k in match t with true => let a' := r_exp a env in constr:(RMuln a' k) | false => atom tt end
  | _ => atom tt
  end.
(** proves [l = r] in a comRingType when it is a ring identity *)
Ltac rng :=
  match goal with
  | |- @eq ?T ?l ?r =>
      let env := r_env l (@nil T) in
      let env := r_env r env in
      let l' := r_exp l env in
      let r' := r_exp r env in
      refine (@rng_sound _ env l' r' _); vm_compute; reflexivity
  end.

Example rng_test (R : realFieldType) (a b : R) : (a + b) ^+ 2 - 2%:R * a * b = a * a + b ^+ 2.
Proof. rng. Qed.
Example rng_test2 (R : realFieldType) (a b : R) : (a + b / 3%:R) *+ 2 = a * 2%:R + 3%:R^-1 * b * 2%:R.
Proof. rng. Qed.

(** expand matrix products over sums *)
Ltac mxexp :=
  rewrite ?(mulmxDl, mulmxDr, mulmxBl, mulmxBr, mulmxN, mulNmx, mulmx1, mul1mx, mulmx0, mul0mx);
  repeat progress rewrite ?(mulmxDl, mulmxDr, mulmxBl, mulmxBr, mulmxN, mulNmx, mulmx1, mul1mx, mulmx0, mul0mx, mulmxA).
