(** Property theorems C66 (VectorState and MatrixLieGroupState, navlie/lib/states.py).
    Reading guide: [lie_init v t i dir] is MatrixLieGroupState(v, group, t, i, dir); a pymlg group
    is given by its functions Exp, Log, ginv (inverse), Jl/Jr (left/right_jacobian) and their
    inverses; [hat] is wedge, G membership of the group. *)
From mathcomp Require Import all_ssreflect all_algebra.
From Verif Require Import Base Tac LieModel PreintProps ProcessProps Deriv.
Set Implicit Arguments.
Unset Strict Implicit.
Unset Printing Implicit Defensive.
Import Order.Theory GRing.Theory Num.Theory.
Local Open Scope ring_scope.

Section Lie.
Variable R : realFieldType.
Variables (S I : Type) (d k : nat).
Variables (Exp : 'cV[R]_d -> 'M[R]_k) (Log : 'M[R]_k -> 'cV[R]_d) (ginv : 'M[R]_k -> 'M[R]_k).
Variables (Jl Jr Jlinv Jrinv : 'cV[R]_d -> 'M[R]_d) (hat : 'cV[R]_d -> 'M[R]_k) (G : 'M[R]_k -> Prop).
Notation lstate := (lstate R S I).
Notation state X t i dir := (@LState R S I k X t i dir).
Notation init := (@lie_init R S I d k Exp).
Notation plus := (@lie_plus R S I d k Exp).
Notation minus := (@lie_minus R S I d k Log ginv).
Notation plus_jacobian := (@lie_plus_jacobian R S I d Jl Jr).
Notation minus_jacobian := (@lie_minus_jacobian R S I d k Log ginv Jlinv Jrinv).
Notation dot := (@lie_dot R S I d k Exp).
Notation copy := (@lie_copy R S I d k Exp).
Definition known (dir : dirname) : bool := if dir is DirOther then false else true.

(** *** Construction *)
Theorem C66_from_coordinates (v : pyval R) t i dir (s : seq R) : size s = d ->
  v = PArr1 s \/ (exists m n (M : 'M[R]_(m, n)), [/\ v = PArr2 M, (m * n)%N = d & s = ravel M]) ->
  init v t i dir = Ok (state (Exp (\col_j nth 0 s j)) t i dir).
Proof.
move=> sd [->|[m [n [M [-> e ->]]]]]; rewrite /lie_init.
  by rewrite sd eqxx.
by rewrite e eqxx.
Qed.
Lemma castmx_self (n : nat) (e1 e2 : n = n) (M : 'M[R]_n) : castmx (e1, e2) M = M.
Proof. by rewrite (eq_irrelevance e1 erefl) (eq_irrelevance e2 erefl) castmx_id. Qed.
Lemma init_square (n : nat) (M : 'M[R]_n) t i dir : (n * n)%N <> d -> init (PArr2 M) t i dir = Ok (LState M t i dir).
Proof. by move=> /eqP/negbTE h; rewrite /lie_init h; case: eqP => // e; rewrite castmx_self. Qed.
Lemma as_kE X t i dir : @as_k R S I k (state X t i dir) = Ok X.
Proof. by rewrite /as_k /=; case: eqP => // e; rewrite castmx_self. Qed.
Theorem C66_from_matrix (X : 'M[R]_k) t i dir : (k * k)%N <> d -> init (PArr2 X) t i dir = Ok (state X t i dir).
Proof. exact: init_square. Qed.
Theorem C66_not_square m n (M : 'M[R]_(m, n)) t i dir : (m * n)%N <> d -> m <> n -> init (PArr2 M) t i dir = Raise ValueError.
Proof. by move=> /eqP/negbTE h mn; rewrite /lie_init h; case: eqP => // e; case: mn. Qed.
(** an array of coordinates of the wrong length is not reported as such (ValueError, as for
    matrices) but fails with IndexError; *)
Theorem C66_wrong_length_refuted (s : seq R) t i dir : size s <> d -> init (PArr1 s) t i dir = Raise IndexError.
Proof. by move=> /eqP/negbTE h; rewrite /lie_init h. Qed.
(** and a square matrix of the wrong size is accepted; the first plus raises *)
Theorem C66_wrong_size_refuted n (M : 'M[R]_n) t i dir dx : (n * n)%N <> d -> n <> k ->
  exists x, [/\ init (PArr2 M) t i dir = Ok x, lsize x <> k & plus x dx = Raise ValueError].
Proof.
move=> nd nk; exists (LState M t i dir); split=> //; first exact: init_square.
by rewrite /lie_plus /lie_copy init_square //= /as_k /=; case: dir => //=; case: eqP.
Qed.
Theorem C66_copy (X : 'M[R]_k) t i dir : (k * k)%N <> d -> copy (state X t i dir) = Ok (state X t i dir).
Proof. exact: init_square. Qed.

(** *** plus and minus *)
Hypothesis kd : (k * k)%N <> d.          (* true of SO2, SO3, SE2, SE3, SE23, SL3 *)
Lemma plusE X t i dir dx : plus (state X t i dir) dx =
  if dir is DirOther then Raise ValueError else Ok (state (if dir is DirRight then X *m Exp dx else Exp dx *m X) t i dir).
Proof. by rewrite /lie_plus /lie_copy init_square //=; case: dir; rewrite ?as_kE. Qed.
Lemma minusE X t i dir Y t' i' dir' : minus (state Y t' i' dir') (state X t i dir) =
  if dir' is DirOther then Raise ValueError else Ok (Log (if dir' is DirRight then ginv X *m Y else Y *m ginv X)).
Proof. by rewrite /lie_minus /=; case: dir'; rewrite ?as_kE. Qed.

(** group axioms, and where the logarithm inverts the exponential: for every element [LD], for
    every coordinate vector in [D] *)
Variables (LD : 'M[R]_k -> Prop) (D : 'cV[R]_d -> Prop).
Hypothesis group : [/\ G 1%:M, forall X Y, G X -> G Y -> G (X *m Y), forall X, G X -> G (ginv X),
  forall v, G (Exp v) & forall X, G X -> X *m ginv X = 1%:M].
Hypothesis exp_log : forall X, G X -> LD X -> Exp (Log X) = X.
Hypothesis log_exp : forall v, D v -> Log (Exp v) = v.
Lemma gM X Y : G X -> G Y -> G (X *m Y). Proof. by case: group => _ h _ _ _; exact: h. Qed.
Lemma gV X : G X -> G (ginv X). Proof. by case: group => _ _ h _ _; exact: h. Qed.
Lemma gE v : G (Exp v). Proof. by case: group => _ _ _ h _; exact: h. Qed.
Lemma gmulV X : G X -> X *m ginv X = 1%:M. Proof. by case: group => _ _ _ _ h; exact: h. Qed.
Lemma gVmul X : G X -> ginv X *m X = 1%:M. Proof. by move=> /gmulV; exact: mulmx1C. Qed.

Theorem C66_minus_then_plus (X Y : 'M[R]_k) t i t' i' dir : G X -> G Y -> known dir ->
  LD (if dir is DirRight then ginv X *m Y else Y *m ginv X) ->
  exists e, minus (state Y t' i' dir) (state X t i dir) = Ok e /\ plus (state X t i dir) e = Ok (state Y t i dir).
Proof.
move=> gX gY; rewrite minusE; case: dir => // _ ld; eexists; split; try reflexivity; rewrite plusE.
  by rewrite exp_log ?mulmxA ?gmulV ?mul1mx //; apply: gM => //; exact: gV.
by rewrite exp_log -?mulmxA ?gVmul ?mulmx1 //; apply: gM => //; exact: gV.
Qed.
Theorem C66_plus_then_minus (X : 'M[R]_k) t i dir dx : G X -> D dx -> known dir ->
  exists y, plus (state X t i dir) dx = Ok y /\ minus y (state X t i dir) = Ok dx.
Proof.
move=> gX Ddx; rewrite plusE; case: dir => // _; eexists; split; try reflexivity; rewrite minusE.
  by rewrite mulmxA gVmul // mul1mx log_exp.
by rewrite -mulmxA gmulV // mulmx1 log_exp.
Qed.
(** plus and dot keep stamp, id and direction of self; dot is the group product *)
Theorem C66_dot (X Y : 'M[R]_k) t i dir t' i' dir' :
  dot (state X t i dir) (state Y t' i' dir') = Ok (state (X *m Y) t i dir).
Proof. by rewrite /lie_dot /lie_copy init_square //= !as_kE. Qed.
Theorem C66_bad_direction (X Y : 'M[R]_k) t i t' i' dir dx :
  [/\ plus (state X t i DirOther) dx = Raise ValueError, minus (state X t i DirOther) (state Y t' i' dir) = Raise ValueError,
      plus_jacobian (state X t i DirOther) dx = Raise ValueError & minus_jacobian (state X t i DirOther) (state Y t' i' dir) = Raise ValueError].
Proof. by rewrite plusE /lie_minus_jacobian minusE. Qed.

(** *** The Jacobians are the derivatives, in the direction of the state *)
Hypothesis Exp0 : Exp 0 = 1%:M.
(** pymlg's Jacobians: the derivative of Exp, pulled back to the identity; of Log, at an element
    of LD *)
Hypothesis Jr_spec : forall v w, is_mderiv (fun h => Exp (v + h *: w)) (Exp v *m hat (Jr v *m w)).
Hypothesis Jl_spec : forall v w, is_mderiv (fun h => Exp (v + h *: w)) (hat (Jl v *m w) *m Exp v).
Hypothesis Jrinv_spec : forall (F : R -> 'M[R]_k) w, (forall h, G (F h)) -> LD (F 0) ->
  is_mderiv F (F 0 *m hat w) -> is_mderiv (fun h => Log (F h)) (Jrinv (Log (F 0)) *m w).
Hypothesis Jlinv_spec : forall (F : R -> 'M[R]_k) w, (forall h, G (F h)) -> LD (F 0) ->
  is_mderiv F (hat w *m F 0) -> is_mderiv (fun h => Log (F h)) (Jlinv (Log (F 0)) *m w).
Hypothesis J0 : [/\ Jr 0 = 1%:M, Jl 0 = 1%:M, Jrinv 0 = 1%:M & Jlinv 0 = 1%:M].
Hypothesis D0 : D 0.
Hypothesis LD1 : LD 1%:M.
Definition unok A (a : A) (r : result A) : A := if r is Ok x then x else a.
Lemma Log1 : Log 1%:M = 0. Proof. by rewrite -Exp0 log_exp. Qed.

(** D (x + dx) / D dx: h |-> (x.plus(dx + h w)).minus(x.plus(dx)) has derivative J w *)
Theorem C66_plus_jacobian (X : 'M[R]_k) t i dir dx w : G X -> known dir ->
  exists J y, [/\ plus_jacobian (state X t i dir) dx = Ok J, plus (state X t i dir) dx = Ok y &
    is_mderiv (fun h => unok 0 (y' <~ plus (state X t i dir) (dx + h *: w) ;; minus y' y)) (J *m w)].
Proof.
move=> gX; case: J0 => _ _ jr jl; case: dir => // _; rewrite /lie_plus_jacobian plusE; do 2 eexists; split; try reflexivity.
  pose F h := ginv (Exp dx) *m Exp (dx + h *: w).
  have gF h : G (F h) by apply: gM; [apply: gV|]; exact: gE.
  have F0 : F 0 = 1%:M by rewrite /F scale0r addr0 gVmul //; exact: gE.
  have H : is_mderiv F (F 0 *m hat (Jr dx *m w)).
    by have := mderivMl (ginv (Exp dx)) (Jr_spec dx w); rewrite mulmxA F0 gVmul //; exact: gE.
  have := Jrinv_spec gF _ H; rewrite F0 Log1 jr mul1mx => /(_ LD1).
  apply: eq_mderiv => h; rewrite plusE /= minusE /=; congr Log; rewrite /F.
  have gE1 : G (X *m Exp dx) by apply: gM => //; exact: gE.
  have -> : ginv (X *m Exp dx) = ginv (Exp dx) *m ginv X.
    rewrite -[RHS]mulmx1 -(gmulV gE1) !mulmxA -[_ *m ginv X *m X]mulmxA gVmul // mulmx1 gVmul ?mul1mx //; exact: gE.
  by rewrite !mulmxA -[_ *m ginv X *m X]mulmxA gVmul // mulmx1.
pose F h := Exp (dx + h *: w) *m ginv (Exp dx).
have gF h : G (F h) by apply: gM; [|apply: gV]; exact: gE.
have F0 : F 0 = 1%:M by rewrite /F scale0r addr0 gmulV //; exact: gE.
have H : is_mderiv F (hat (Jl dx *m w) *m F 0).
  by have := mderivMr (ginv (Exp dx)) (Jl_spec dx w); rewrite -mulmxA F0 gmulV //; exact: gE.
have := Jlinv_spec gF _ H; rewrite F0 Log1 jl mul1mx => /(_ LD1).
apply: eq_mderiv => h; rewrite plusE /= minusE /=; congr Log; rewrite /F.
have gE1 : G (Exp dx *m X) by apply: gM => //; exact: gE.
have -> : ginv (Exp dx *m X) = ginv X *m ginv (Exp dx).
  rewrite -[RHS]mulmx1 -(gmulV gE1) !mulmxA -[_ *m ginv _ *m Exp dx]mulmxA gVmul ?mulmx1 ?gVmul ?mul1mx //; exact: gE.
by rewrite !mulmxA -[_ *m X *m ginv X]mulmxA gmulV // mulmx1.
Qed.
(** D (y - x) / D y: h |-> (y.plus(h w)).minus(x) has derivative J w *)
Theorem C66_minus_jacobian (X Y : 'M[R]_k) t i t' i' dir w : G X -> G Y -> known dir ->
  LD (if dir is DirRight then ginv X *m Y else Y *m ginv X) ->
  exists J, minus_jacobian (state Y t' i' dir) (state X t i dir) = Ok J /\
    is_mderiv (fun h => unok 0 (y' <~ plus (state Y t' i' dir) (h *: w) ;; minus y' (state X t i dir))) (J *m w).
Proof.
move=> gX gY; case: J0 => jr jl _ _; rewrite /lie_minus_jacobian minusE; case: dir => // _ ld; eexists; split; try reflexivity.
  pose F h := ginv X *m Y *m Exp (h *: w).
  have gF h : G (F h) by apply: gM; [apply: gM => //; exact: gV|exact: gE].
  have F0 : F 0 = ginv X *m Y by rewrite /F scale0r Exp0 mulmx1.
  have H : is_mderiv F (F 0 *m hat w).
    have := mderivMl (ginv X *m Y) (Jr_spec 0 w); rewrite jr mul1mx Exp0 mul1mx F0.
    by apply: eq_mderiv => h; rewrite add0r.
  have := Jrinv_spec gF _ H; rewrite F0 => /(_ ld).
  by apply: eq_mderiv => h; rewrite plusE /= minusE /= /F mulmxA.
pose F h := Exp (h *: w) *m (Y *m ginv X).
have gF h : G (F h) by apply: gM; [exact: gE|apply: gM => //; exact: gV].
have F0 : F 0 = Y *m ginv X by rewrite /F scale0r Exp0 mul1mx.
have H : is_mderiv F (hat w *m F 0).
  have := mderivMr (Y *m ginv X) (Jl_spec 0 w); rewrite jl mul1mx Exp0 mulmx1 F0.
  by apply: eq_mderiv => h; rewrite add0r.
have := Jlinv_spec gF _ H; rewrite F0 => /(_ ld).
by apply: eq_mderiv => h; rewrite plusE /= minusE /= /F mulmxA.
Qed.
End Lie.

(** *** A non-commutative instance satisfying every hypothesis, with D and LD everything *)
Section Heisenberg.
Variable R : realFieldType.
Notation i0 := (inord 0 : 'I_3).
Notation i1 := (inord 1 : 'I_3).
Notation i2 := (inord 2 : 'I_3).
Definition hLog (X : 'M[R]_3) : 'cV[R]_3 := \col_i nth 0 [:: h01 X; h12 X; h02 X - h01 X * h12 X / 2%:R] i.
Lemma hLogE a b c : [/\ hLog (hmx a b c) i0 0 = a, hLog (hmx a b c) i1 0 = b & hLog (hmx a b c) i2 0 = c - a * b / 2%:R].
Proof. by rewrite !mxE !inordK //= h01E h12E h02E. Qed.
Lemma col3P (u v : 'cV[R]_3) : u i0 0 = v i0 0 -> u i1 0 = v i1 0 -> u i2 0 = v i2 0 -> u = v.
Proof.
move=> e0 e1 e2; apply/matrixP => i j; rewrite [j]ord1.
have : [|| i == i0, i == i1 | i == i2].
  by case: i => [[|[|[|//]]] hi]; apply/or3P; [apply: Or31|apply: Or32|apply: Or33]; apply/eqP/val_inj; rewrite /= inordK.
by case/or3P => /eqP ->.
Qed.
Lemma hexp_log (X : 'M[R]_3) : hG X -> True -> hExp (hLog X) = X.
Proof. by move=> [a [b [c ->]]] _; rewrite /hExp; case: (hLogE a b c) => -> -> ->; rewrite subrK. Qed.
Lemma hlog_exp (v : 'cV[R]_3) : True -> hLog (hExp v) = v.
Proof. by move=> _; apply: col3P; rewrite /hExp; case: (hLogE (v i0 0) (v i1 0) (v i2 0 + v i0 0 * v i1 0 / 2%:R)) => // _ _ ->; rewrite addrK. Qed.
Lemma hgroup : [/\ hG (1%:M : 'M[R]_3), forall X Y : 'M[R]_3, hG X -> hG Y -> hG (X *m Y), forall X : 'M[R]_3, hG X -> hG (hinv X),
  forall v : 'cV[R]_3, hG (hExp v) & forall X : 'M[R]_3, hG X -> X *m hinv X = 1%:M].
Proof. by case: (heisenberg_laws R) => h1 h2 h3 h4 h5 *; split. Qed.
Lemma hExp0 : hExp (0 : 'cV[R]_3) = 1%:M. Proof. by case: (heisenberg_laws R). Qed.
Lemma hJr_spec (v w : 'cV[R]_3) : is_mderiv (fun h => hExp (v + h *: w)) (hExp v *m hhat (hJl (- v) *m w)).
Proof. by case: (heisenberg_lie R). Qed.
Lemma hJl_spec (v w : 'cV[R]_3) : is_mderiv (fun h => hExp (v + h *: w)) (hhat (hJl v *m w) *m hExp v).
Proof.
have := hJr_spec v w; rewrite (_ : hhat (hJl v *m w) = hExp v *m hhat (hJl (- v) *m w) *m hinv (hExp v)); last first.
  rewrite -(ll_hat (heisenberg_lie R)); last by case: hgroup.
  congr hhat; have two : 2%:R != 0 :> R by rewrite pnatr_eq0.
  apply: col3P; rewrite /hExp ?hAd0 ?hAd1 ?hAd2 ?hJ0 ?hJ1 ?hJ2 //= !mxE.
  by apply: (mulIf two); rewrite !(mulrDl, mulrBl) !mulNr !divfK // !mulrDr !mulr1; rng.
have gE : hG (hExp v) by case: hgroup.
by rewrite -mulmxA (_ : hinv _ *m _ = 1%:M) ?mulmx1 //; apply: mulmx1C; case: hgroup => _ _ _ _; apply.
Qed.
Lemma hlog_deriv (F : R -> 'M[R]_3) L : (forall h, hG (F h)) -> is_mderiv F L ->
  is_mderiv (fun h => hLog (F h)) (\col_i nth 0 [:: L i0 i1; L i1 i2; L i0 i2 - (L i0 i1 * F 0 i1 i2 + F 0 i0 i1 * L i1 i2) / 2%:R] i).
Proof.
move=> gF H i j; rewrite mxE.
have h3 := derivB (H i0 i2) (derivZ 2%:R^-1 (derivM (H i0 i1) (H i1 i2))).
case: i => [[|[|[|//]]] hi] /=.
- by apply: eq_deriv (H i0 i1) => h; rewrite mxE.
- by apply: eq_deriv (H i1 i2) => h; rewrite mxE.
- by rewrite mulrC; apply: eq_deriv h3 => h; rewrite mxE /= /h01 /h12 /h02 mulrC.
Qed.
Lemma hJrinv_spec (F : R -> 'M[R]_3) w : (forall h, hG (F h)) -> True ->
  is_mderiv F (F 0 *m hhat w) -> is_mderiv (fun h => hLog (F h)) (hJl (hLog (F 0)) *m w).
Proof.
move=> gF _ /(hlog_deriv gF); have [a [b [c ->]]] := gF 0.
rewrite (_ : \col_i _ = hJl (hLog (hmx a b c)) *m w) //.
have hh (x : R) : x = x / 2%:R + x / 2%:R by exact: splitr.
apply: col3P; rewrite ?hJ0 ?hJ1 ?hJ2 !mxE ?big_ord_recl ?big_ord0 ?mxE ?inordK //= ?h01E ?h12E; try rng.
transitivity (w i2 0 + (a * w i1 0 / 2%:R + a * w i1 0 / 2%:R) - (w i0 0 * b + a * w i1 0) / 2%:R); last rng.
by rewrite -hh; rng.
Qed.
Lemma hJlinv_spec (F : R -> 'M[R]_3) w : (forall h, hG (F h)) -> True ->
  is_mderiv F (hhat w *m F 0) -> is_mderiv (fun h => hLog (F h)) (hJl (- hLog (F 0)) *m w).
Proof.
move=> gF _ /(hlog_deriv gF); have [a [b [c ->]]] := gF 0.
rewrite (_ : \col_i _ = hJl (- hLog (hmx a b c)) *m w) //.
have hh (x : R) : x = x / 2%:R + x / 2%:R by exact: splitr.
apply: col3P; rewrite ?hJ0 ?hJ1 ?hJ2 !mxE ?big_ord_recl ?big_ord0 ?mxE ?inordK //= ?h01E ?h12E; try rng.
transitivity (w i2 0 + (w i0 0 * b / 2%:R + w i0 0 * b / 2%:R) - (w i0 0 * b + a * w i1 0) / 2%:R); last rng.
by rewrite -hh; rng.
Qed.
End Heisenberg.

(** every hypothesis of the theorems above holds of this group, without restriction *)
Section HeisenbergInstance.
Variable R : realFieldType.
Variables S I : Type.
Notation state X t i dir := (@LState R S I 3 X t i dir).
Lemma nine : (3 * 3)%N <> 3%N. Proof. by []. Qed.
Example C66_instance (X Y : 'M[R]_3) (t t' : S) (i i' : I) dx w dir : hG X -> hG Y -> known dir ->
  [/\ exists e, lie_minus (@hLog R) (@hinv R) (state Y t' i' dir) (state X t i dir) = Ok e /\ lie_plus (@hExp R) (state X t i dir) e = Ok (state Y t i dir),
      exists y, lie_plus (@hExp R) (state X t i dir) dx = Ok y /\ lie_minus (@hLog R) (@hinv R) y (state X t i dir) = Ok dx,
      exists J y, [/\ lie_plus_jacobian (@hJl R) (fun v => hJl (- v)) (state X t i dir) dx = Ok J, lie_plus (@hExp R) (state X t i dir) dx = Ok y &
        is_mderiv (fun h => unok 0 (y' <~ lie_plus (@hExp R) (state X t i dir) (dx + h *: w) ;; lie_minus (@hLog R) (@hinv R) y' y)) (J *m w)] &
      exists J, lie_minus_jacobian (@hLog R) (@hinv R) (fun v => hJl (- v)) (@hJl R) (state Y t' i' dir) (state X t i dir) = Ok J /\
        is_mderiv (fun h => unok 0 (y' <~ lie_plus (@hExp R) (state Y t' i' dir) (h *: w) ;; lie_minus (@hLog R) (@hinv R) y' (state X t i dir))) (J *m w)].
Proof.
have j0 : hJl 0 = 1%:M :> 'M[R]_3 by case: (heisenberg_lie R).
have j0' : hJl (- 0) = 1%:M :> 'M[R]_3 by rewrite oppr0.
move=> gX gY kd; split.
- exact: (C66_minus_then_plus nine (@hgroup R) (LD := fun=> True) (@hexp_log R)).
- exact: (C66_plus_then_minus nine (@hgroup R) (D := fun=> True) (@hlog_exp R)).
- apply: (C66_plus_jacobian (LD := fun=> True) (D := fun=> True) (Jlinv := fun v => hJl (- v)) nine (@hgroup R) (@hlog_exp R) (@hExp0 R) (@hJr_spec R) (@hJl_spec R) (@hJrinv_spec R) (@hJlinv_spec R)) => //; by split.
- apply: (C66_minus_jacobian (LD := fun=> True) nine (@hgroup R) (@hExp0 R) (@hJr_spec R) (@hJl_spec R) (@hJrinv_spec R) (@hJlinv_spec R)) => //; by split.
Qed.
(** minus ignores the direction of its argument: for a state and an estimate with different
    directions the law fails on a non-commutative group *)
Theorem C66_mixed_directions_refuted (t : S) (i : I) :
  exists X Y : 'M[R]_3, [/\ hG X, hG Y &
    exists e z, [/\ lie_minus (@hLog R) (@hinv R) (state Y t i DirRight) (state X t i DirLeft) = Ok e,
      lie_plus (@hExp R) (state X t i DirLeft) e = Ok z & z <> state Y t i DirLeft]].
Proof.
exists (hmx 1 0 0), (hmx 0 1 0); split; try by do 3 eexists.
do 2 eexists; split; first by rewrite minusE; reflexivity.
  by rewrite (plusE _ nine); reflexivity.
move=> E; have : lval (state (hExp (hLog (hinv (hmx 1 0 0) *m hmx 0 1 0)) *m hmx 1 0 0) t i DirLeft) = hmx 0 1 0.
  have := congr1 (fun z => unok 0 (as_k 3 z)) E.
  by rewrite !as_kE.
have gg : hG (hinv (hmx 1 0 0) *m hmx 0 1 0 : 'M[R]_3) by rewrite /hinv h01E h12E h02E hmxM; do 3 eexists.
rewrite /= (hexp_log gg Logic.I) /hinv !h01E !h12E !h02E !hmxM => /(congr1 (@h02 R)); rewrite !h02E.
rewrite ?(mul0r, mulr0, mulr1, mul1r, subrr, addr0, add0r, oppr0) => /eqP; by rewrite oppr_eq0 oner_eq0.
Qed.
End HeisenbergInstance.

(** *** VectorState *)
Section Vector.
Variable R : realFieldType.
Variables S I : Type.
Notation vstate := (vstate R S I).
Theorem C66_vector_plus_then_minus (x : vstate) dx : size dx = size (vval x) ->
  exists y, [/\ vector_plus x dx = Ok y, vstamp y = vstamp x /\ vid y = vid x & vector_minus y x = Ok dx].
Proof.
move=> e; rewrite /vector_plus e eqxx; eexists; split; [reflexivity|by []|].
rewrite /vector_minus /= size_map size_zip e minnn eqxx; congr Ok.
by elim: (vval x) dx e => [|a s IH] [|b dx] //= [e]; rewrite IH // [a + b]addrC addrK.
Qed.
Theorem C66_vector_minus_then_plus (x y : vstate) : size (vval x) = size (vval y) ->
  exists e x', [/\ vector_minus y x = Ok e, vector_plus x e = Ok x' & vval x' = vval y /\ (vstamp x' = vstamp x /\ vid x' = vid x)].
Proof.
move=> e; rewrite /vector_minus e eqxx; do 2 eexists; split; first reflexivity.
  by rewrite /vector_plus size_map size_zip e minnn eqxx; reflexivity.
split=> //=; move: e; elim: (vval x) (vval y) => [|a s IH] [|b r] //= [e].
by rewrite IH // addrC subrK.
Qed.
Theorem C66_vector_wrong_size (x : vstate) dx : size dx <> size (vval x) -> vector_plus x dx = Raise ValueError.
Proof. by move=> /eqP/negbTE h; rewrite /vector_plus h. Qed.
(** the difference with a state of one element is not an error: it is broadcast *)
Theorem C66_vector_broadcast_refuted (y : vstate) a t i : size (vval y) <> 1%N ->
  vector_minus y (VState [:: a] t i) = Ok [seq b - a | b <- vval y].
Proof. by move=> h; rewrite /vector_minus /= ifF //; apply/negbTE/eqP => e; case: h. Qed.
End Vector.

(** *** jacobian_from_blocks: J dx is the sum of the blocks applied to their part of dx, a block
    left out counting as zero.  The perturbation of SE23State is (attitude, velocity, position) *)
Section Blocks.
Variable R : realFieldType.
Definition oapply_ (A : option (arr R)) (v : seq R) (r : nat) : R := if A is Some A then aapply A v r else 0.
Definition fits (m w : nat) (A : option (arr R)) : Prop := if A is Some A then nrow A = m /\ ncol A = w else True.
Lemma ahcat_apply (A B J : arr R) u v r : ahcat A B = Ok J -> size u = ncol A -> aapply J (u ++ v) r = aapply A u r + aapply B v r.
Proof.
rewrite /ahcat; case: eqP => // _ [<-] su; rewrite /aapply /= big_split_ord /=; congr (_ + _).
  by apply: eq_bigr => j _; rewrite ltn_ord nth_cat su ltn_ord.
by apply: eq_bigr => j _; rewrite ltnNge leq_addr /= addKn nth_cat su ltnNge leq_addr /= addKn.
Qed.
Lemma zapply m w u r : aapply (azeros R m w) u r = 0.
Proof. by rewrite /aapply big1 // => j _; rewrite mul0r. Qed.
Lemma orz_apply m w A u r : aapply (orzeros m w A) u r = oapply_ A u r.
Proof. by case: A => //=; exact: zapply. Qed.
Lemma orz_fits m w A : fits m w A -> nrow (orzeros m w A) = m /\ ncol (orzeros m w A) = w.
Proof. by case: A. Qed.
Lemma last_dimE m w1 w2 (A B : option (arr R)) : fits m w1 A -> fits m w2 B -> A <> None \/ B <> None -> last_dim [:: A; B] = Ok m.
Proof.
by case: A => [A|]; case: B => [B|] //=; rewrite /last_dim /=; [move=> _ [-> _]|move=> [-> _]|move=> _ [-> _]|move=> _ _ []].
Qed.
Theorem C66_blocks wa wp m (A P : option (arr R)) : fits m wa A -> fits m wp P -> A <> None \/ P <> None ->
  exists J, [/\ from_blocks2 wa wp A P = Ok J, nrow J = m /\ ncol J = (wa + wp)%N &
    forall u v r, size u = wa -> aapply J (u ++ v) r = oapply_ A u r + oapply_ P v r].
Proof.
move=> fA fP h; rewrite /from_blocks2 (last_dimE fA fP h) /=.
have [rA cA] := orz_fits fA; have [rP cP] := orz_fits fP.
case E: (ahcat _ _) => [J|]; last by move: E; rewrite /ahcat rA rP eqxx.
exists J; split=> // [|u v r su]; first by move: E; rewrite /ahcat rA rP eqxx => -[<-] /=; rewrite cA cP.
by rewrite (ahcat_apply _ _ E) ?cA // !orz_apply.
Qed.
Theorem C66_blocks_se23 m (A P V : option (arr R)) : fits m 3 A -> fits m 3 P -> fits m 3 V ->
  A <> None \/ P <> None \/ V <> None ->
  exists J, [/\ se23_from_blocks A P V = Ok J, nrow J = m /\ ncol J = 9%N &
    forall a v p r, size a = 3%N -> size v = 3%N -> aapply J (a ++ v ++ p) r = oapply_ A a r + oapply_ V v r + oapply_ P p r].
Proof.
move=> fA fP fV h; rewrite /se23_from_blocks.
have -> : last_dim [:: A; P; V] = Ok m.
  rewrite /last_dim; case: V fV h => [V [e _] _|_ h]; first by case: (A) => [?|]; case: (P) => [?|] /=; rewrite e.
  case: P fP h => [P [e _] _|_ h]; first by case: (A) => [?|] /=; rewrite e.
  by case: A fA h => [A [e _] _|_ [|[]]] //=; rewrite e.
have [rA cA] := orz_fits fA; have [rP cP] := orz_fits fP; have [rV cV] := orz_fits fV => /=.
case E: (ahcat _ _) => [AV|]; last by move: E; rewrite /ahcat rA rV eqxx.
have [rAV cAV] : nrow AV = m /\ ncol AV = 6%N by move: E; rewrite /ahcat rA rV eqxx => -[<-] /=; rewrite cA cV.
rewrite /=; case E': (ahcat _ _) => [J|]; last by move: E'; rewrite /ahcat rAV rP eqxx.
exists J; split=> // [|a v p r sa sv]; first by move: E'; rewrite /ahcat rAV rP eqxx => -[<-] /=; rewrite cAV cP.
by rewrite catA (ahcat_apply _ _ E') ?size_cat ?sa ?sv // (ahcat_apply _ _ E) ?cA // !orz_apply.
Qed.
Theorem C66_no_blocks_refuted wa wp : from_blocks2 wa wp (None : option (arr R)) None = Raise UnboundLocalError.
Proof. by []. Qed.
End Blocks.

(** SE3State.random() is documented to be (and named as) an SE3State, but is an SE2State *)
Theorem C66_random_refuted : exists c, random_class c <> c /\ class_dof (random_class c) <> class_dof c.
Proof. by exists CSE3. Qed.

Print Assumptions C66_minus_then_plus.
Print Assumptions C66_plus_then_minus.
Print Assumptions C66_plus_jacobian.
Print Assumptions C66_minus_jacobian.
Print Assumptions C66_instance.
Print Assumptions C66_mixed_directions_refuted.
Print Assumptions C66_blocks_se23.
