(** C38-C42, C74: the mixture residuals end to end, from the weights and components handed to the
    constructor and the states handed to [evaluate]. *)
From Coq Require Import Reals Lra Psatz.
From Coquelicot Require Import Coquelicot.
From mathcomp Require Import ssreflect ssrfun ssrbool eqtype ssrnat seq.
From Verif Require Import Base GmModel GmProps GmProps2.
Set Implicit Arguments.
Unset Strict Implicit.
Unset Printing Implicit Defensive.
Local Open Scope R_scope.

Section E2E.
Variables (K : eqType) (V : Type) (dof : V -> nat).
Notation component := (component K V).
Implicit Types (c : component) (cs : seq component).

(** ** Specification: the states of the problem are given by [value]. *)
Definition at_ (value : K -> V) c : seq V := [seq value k | k <- c_keys c].
Definition err (value : K -> V) c : seq R := e_val (c_err c (at_ value c)).
(** w_k / (sum of the weights) * det sqrt(information_k) *)
Definition alpha_ (ws : seq R) (value : K -> V) (wc : R * component) : R :=
  wc.1 / rsum ws * c_det wc.2 (at_ value wc.2).
(** -log sum_k w_k det(..) exp(-|e_k|^2 / 2), with normalised weights *)
Definition mixture_nll cs ws value : R :=
  - ln (rsum [seq alpha_ ws value wc * exp (- (1/2) * sq (err value wc.2)) | wc <- zip ws cs]).
(** posterior probability of a component *)
Definition posterior cs ws value (wc : R * component) : R :=
  alpha_ ws value wc * exp (- (1/2) * sq (err value wc.2)) /
  rsum [seq alpha_ ws value wc * exp (- (1/2) * sq (err value wc.2)) | wc <- zip ws cs].
(** entry [col] of the gradient of |e_k|^2/2 with respect to the state of key [k] *)
Definition comp_gradient (value : K -> V) c (k : K) (col : nat) : R :=
  if k \in c_keys c then jte (c_jac c (at_ value c) (index k (c_keys c))) (err value c) col else 0.

(** components as the library's residuals are: distinct keys, Jacobians of matching shapes *)
Definition wf_component (value : K -> V) c : Prop :=
  [/\ uniq (c_keys c), 0 < c_det c (at_ value c) &
      forall k, k \in c_keys c ->
        size (j_rows (c_jac c (at_ value c) (index k (c_keys c)))) = size (err value c) /\
        j_cols (c_jac c (at_ value c) (index k (c_keys c))) = dof (value k)].

Lemma alphas_lem (ws ds : seq R) : alphas_of (norm_weights ws) ds = [seq wd.1 / rsum ws * wd.2 | wd <- zip ws ds].
Proof.
rewrite /alphas_of /norm_weights; set s := rsum ws; move: s => s.
by elim: ws ds => [|w ws IH] [|d ds] //=; rewrite IH.
Qed.

Lemma alphas_zip (ws : seq R) cs (s : R) (D : component -> R) :
  [seq wd.1 / s * wd.2 | wd <- zip ws [seq D c | c <- cs]] = [seq wc.1 / s * D wc.2 | wc <- zip ws cs].
Proof. by elim: ws cs => [|w l IH] [|c m] //=; rewrite IH. Qed.

Lemma mapM_ok T U (f : T -> result U) (g : T -> U) (l : seq T) : (forall x, List.In x l -> f x = Ok (g x)) ->
  mapM f l = Ok [seq g x | x <- l].
Proof.
elim: l => [|x l IH] //= h; rewrite h /=; last by left.
by rewrite IH //= => y yi; apply: h; right.
Qed.

Section One.
Variables (cs : seq component) (ws : seq R) (value : K -> V).
Hypothesis n0 : (0 < size cs)%N.
Hypothesis szw : size ws = size cs.
Hypothesis wpos : forall w, List.In w ws -> 0 < w.
Hypothesis wf : forall c, List.In c cs -> wf_component value c.
Let ks := mix_keys cs.
Let states := [seq value k | k <- ks].
Let es := [seq c_err c (at_ value c) | c <- cs].
Let alphas := [seq alpha_ ws value wc | wc <- zip ws cs].

Lemma In_nth T (x0 : T) (s : seq T) i : (i < size s)%N -> List.In (nth x0 s i) s.
Proof. by elim: s i => [|x s IH] [|i] //= lt; [left|right; exact: IH]. Qed.

Lemma vals_ok : mapM (fun c => vs <~ comp_states ks states c ;; Ok (c_err c vs, c_det c vs, vs)) cs =
  Ok [seq (c_err c (at_ value c), c_det c (at_ value c), at_ value c) | c <- cs].
Proof.
have h i c0 : (i < size cs)%N -> comp_states ks states (nth c0 cs i) = Ok (at_ value (nth c0 cs i)).
  by move=> lt; exact: C74_component_states.
case: cs n0 h => // c0 l _ h; move: (c0 :: l) h => m h.
have {h} : forall c, List.In c m -> comp_states ks states c = Ok (at_ value c).
  elim: m h => [|x m IH] //= h c [<-|ci]; first exact: (h 0%N c0).
  by apply: IH => // i c1 lt; exact: (h i.+1 c1).
elim: m => [|x m IH] //= h; rewrite h /=; last by left.
by rewrite IH //= => c ci; apply: h; right.
Qed.


Let c0 : component. Proof. by case: cs n0 => // c. Defined.
Let vals := [seq (c_err c (at_ value c), c_det c (at_ value c), at_ value c) | c <- cs].
Lemma esE : [seq v.1.1 | v <- vals] = es.
Proof. by rewrite /es /vals -map_comp. Qed.
Lemma alphasE : alphas_of (norm_weights ws) [seq v.1.2 | v <- vals] = alphas.
Proof. by rewrite alphas_lem /vals -map_comp alphas_zip. Qed.
Let szz : size (zip ws cs) = size cs. Proof. by rewrite size_zip szw minnn. Qed.
Lemma alpha_pos k : (k < size cs)%N -> 0 < nth 0 alphas k.
Proof.
move=> lk; rewrite (nth_map (0, c0)) ?szz // nth_zip ?szw // /alpha_ /=.
have [_ dp _] := wf (In_nth c0 lk).
have wp j : (j < size cs)%N -> 0 < nth 0 ws j by move=> lj; apply: wpos; apply: In_nth; rewrite szw.
apply: Rmult_lt_0_compat => //; apply: Rdiv_lt_0_compat; first exact: wp.
by rewrite rsum_iota szw; apply: sum_gt0.
Qed.
Lemma valid_mix : valid alphas es.
Proof. by split; rewrite ?size_map ?szz // => k; exact: alpha_pos. Qed.
Lemma likelihoodE2 : likelihood alphas es = rsum [seq alpha_ ws value wc * exp (- (1/2) * sq (err value wc.2)) | wc <- zip ws cs].
Proof.
rewrite (likelihoodE valid_mix) size_map -[LHS]/(rsum _); congr rsum.
rewrite (map_iota _ (zip ws cs) (0, c0)) szz; apply/eq_in_map => k; rewrite mem_iota add0n => /andP [_ lk].
rewrite (nth_map (0, c0)) ?szz // (nth_map c0) // nth_zip ?szw //= /half_sq /err.
by congr (_ * exp _); ring.
Qed.
Lemma nllE : nll alphas es = mixture_nll cs ws value.
Proof. by rewrite /nll likelihoodE2. Qed.
Lemma respE k : (k < size cs)%N -> responsibility alphas es k = posterior cs ws value (nth (0, c0) (zip ws cs) k).
Proof.
move=> lk; rewrite /responsibility likelihoodE2 /posterior; congr (_ / _).
rewrite (nth_map (0, c0)) ?szz // (nth_map c0) // nth_zip ?szw //= /half_sq /err.
by congr (_ * exp _); ring.
Qed.
Lemma eval_unfold kd flags : mixture_evaluate dof kd cs ws states flags =
  let wrt fl i := [seq nth None (comp_jacs dof ks states fl cv.1 cv.2.2) i | cv <- zip cs vals] in
  let jacs (mix : seq (option jac) -> result (option jac)) :=
    match flags with
    | Some (b :: r) => rmap Some (mapM (fun i => mix (wrt (b :: r) i)) (iota 0 (size states)))
    | _ => Ok None
    end in
  match kd with
  | MaxMixture => ek <~ max_mixture_errors alphas es ;;
      js <~ jacs (fun l => Ok (max_mixture_jac ek.2 l)) ;; Ok (ek.1, js)
  | MaxSumMixture damping => enk <~ max_sum_errors damping alphas es ;;
      js <~ jacs (max_sum_jac alphas es enk.1.2 enk.2) ;; Ok (enk.1.1, js)
  | SumMixture => e <~ sum_mixture_error alphas es ;;
      js <~ jacs (sum_mixture_jac alphas es e) ;; Ok ([:: e], js)
  | HessianSumMixture => ed <~ hsm_errors alphas es ;;
      js <~ jacs (hsm_jac ed.2) ;; Ok (ed.1, js)
  end.
Proof. by rewrite /mixture_evaluate vals_ok -/vals [LHS]/= esE alphasE. Qed.

(** *** Value *)
(** C39: half the squared error of the sum mixture is the negative log-likelihood of the mixture plus
    the sum of the normalised component weights *)
Theorem C39_evaluate : exists e, mixture_evaluate dof SumMixture cs ws states None = Ok ([:: e], None) /\
  half_sq [:: e] = mixture_nll cs ws value + rsum [seq alpha_ ws value wc | wc <- zip ws cs].
Proof.
have [e [ee _ eq]] := C39_sum_mixture valid_mix; exists e; rewrite eval_unfold ee; split=> //.
by rewrite -nllE -eq /half_sq /sq /=; ring.
Qed.

(** C41: unless there is a single component with a scalar error *)
Theorem C41_evaluate : sumn [seq size (err value c) | c <- cs] <> 1%N ->
  exists e, mixture_evaluate dof HessianSumMixture cs ws states None = Ok (e, None) /\
  half_sq e = mixture_nll cs ws value +
    ln (rsum [seq alpha_ ws value wc * exp (rsum [seq alpha_ ws value wc' | wc' <- zip ws cs] / alpha_ ws value wc) | wc <- zip ws cs]).
Proof.
move=> h1; have ts : total_size es <> 1%N by rewrite /total_size /es -map_comp.
have [e [ee eq]] := C41_hessian_sum_mixture valid_mix ts; exists e; rewrite eval_unfold ee; split=> //.
by rewrite -nllE eq; congr (_ + ln _); rewrite -map_comp.
Qed.

Let alpha_nth k : (k < size cs)%N -> nth 0 alphas k = alpha_ ws value (nth (0, c0) (zip ws cs) k).
Proof. by move=> lk; rewrite (nth_map (0, c0)) ?szz. Qed.
Lemma In_index T (x0 : T) (s : seq T) x : List.In x s -> exists2 i, (i < size s)%N & nth x0 s i = x.
Proof. by elim: s => [|y s IH] //= [->|/IH [i lt e]]; [exists 0%N|exists i.+1]. Qed.
Let max_alpha amax : (forall j, (j < size es)%N -> nth 0 alphas j <= amax) -> (exists2 j, (j < size es)%N & nth 0 alphas j = amax) ->
  (forall wc, List.In wc (zip ws cs) -> alpha_ ws value wc <= amax) /\
  (exists2 wc, List.In wc (zip ws cs) & alpha_ ws value wc = amax).
Proof.
rewrite size_map => h [j lj ej]; split.
  by move=> wc /(In_index (0, c0)) [i li <-]; rewrite -alpha_nth -?szz //; apply: h; rewrite -szz.
by exists (nth (0, c0) (zip ws cs) j); rewrite -?alpha_nth //; apply: In_nth; rewrite szz.
Qed.

(** C40: with one-dimensional error arrays *)
Theorem C40_evaluate damping : 0 <= damping -> (forall c, List.In c cs -> e_col (c_err c (at_ value c)) = false) ->
  exists e amax, [/\ mixture_evaluate dof (MaxSumMixture damping) cs ws states None = Ok (e, None),
    forall wc, List.In wc (zip ws cs) -> alpha_ ws value wc <= amax,
    exists2 wc, List.In wc (zip ws cs) & alpha_ ws value wc = amax &
    half_sq e = mixture_nll cs ws value + ln (INR (size cs) * amax + damping)].
Proof.
move=> d0 flat.
have [|e [nl [k [amax [ee dk /max_alpha h /h [h1 h2] eq]]]]] := C40_max_sum_mixture valid_mix d0.
  by move=> k; rewrite size_map => lk; rewrite (nth_map c0) //; apply: flat; exact: In_nth.
exists e, amax; rewrite eval_unfold ee; split=> //.
by rewrite -nllE eq size_map.
Qed.
(** ... and with the column errors of the residuals of the library it always raises *)
Theorem C40_evaluate_refuted damping flags : 0 <= damping -> (forall c, List.In c cs -> e_col (c_err c (at_ value c))) ->
  mixture_evaluate dof (MaxSumMixture damping) cs ws states flags = Raise ValueError.
Proof.
move=> d0 col; rewrite eval_unfold (C40_column_errors_refuted valid_mix d0) // => k.
by rewrite size_map => lk; rewrite (nth_map c0) //; apply: col; exact: In_nth.
Qed.

(** C38: half the squared error of the max mixture is the smallest negative log-likelihood of a single
    component, plus the logarithm of the largest weight *)
Theorem C38_evaluate : exists e wc amax,
  let f (wc : R * component) := - ln (alpha_ ws value wc * exp (- (1/2) * sq (err value wc.2))) in
  [/\ mixture_evaluate dof MaxMixture cs ws states None = Ok (e, None),
      List.In wc (zip ws cs) /\ (forall wc', List.In wc' (zip ws cs) -> f wc <= f wc'),
      forall wc, List.In wc (zip ws cs) -> alpha_ ws value wc <= amax,
      exists2 wc, List.In wc (zip ws cs) & alpha_ ws value wc = amax &
      half_sq e = f wc + ln amax].
Proof.
have [e [k [amax [ee [lk dk] /max_alpha h /h [h1 h2] eq]]]] := C38_max_mixture valid_mix.
have fE j : (j < size cs)%N -> - ln (alpha_ ws value (nth (0, c0) (zip ws cs) j) * exp (- (1/2) * sq (err value (nth (0, c0) (zip ws cs) j).2)))
   = - ln (nth 0 alphas j) + half_sq (e_val (nth e0 es j)).
  move=> lj; rewrite ln_mult; [|by rewrite -alpha_nth //; exact: alpha_pos|exact: exp_pos].
  by rewrite ln_exp -alpha_nth // (nth_map c0) // nth_zip ?szw //= /half_sq /err; ring.
rewrite size_map in lk dk; exists e, (nth (0, c0) (zip ws cs) k), amax => f; rewrite eval_unfold ee; split=> //.
  split; first by apply: In_nth; rewrite szz.
  by move=> wc' /(In_index (0, c0)) [j lj <-]; rewrite szz in lj; rewrite /f !fE //; exact: dk.
by rewrite eq /f fE.
Qed.

(** *** Jacobians *)
Section Jacs.
Variables (fl : seq bool).
Hypothesis szf : size fl = size (mix_keys cs).
Let Jof (i : nat) (k0 : K) c : jac :=
  if nth k0 ks i \in c_keys c then c_jac c (at_ value c) (index (nth k0 ks i) (c_keys c))
  else zero_jac (size (err value c)) (dof (value (nth k0 ks i))).
Let wrt i := [seq nth None (comp_jacs dof ks states fl cv.1 cv.2.2) i | cv <- zip cs vals].
Let sub c : List.In c cs -> {subset c_keys c <= ks}.
Proof.
move=> ci k kin; have [_ ->] := C74_keys cs; elim: (cs) ci => //= x l IH [->|/IH ->]; by rewrite ?kin ?orbT.
Qed.
Lemma wrtE i k0 : (i < size ks)%N -> wrt i = if nth false fl i then [seq Some (Jof i k0 c) | c <- cs] else [seq None | c <- cs].
Proof.
move=> li; rewrite /wrt /vals.
have uk : uniq ks by have [] := C74_keys cs.
have h c : List.In c cs -> nth None (comp_jacs dof ks states fl c (at_ value c)) i = if nth false fl i then Some (Jof i k0 c) else None.
  move=> ci; have [uc _ _] := wf ci.
  rewrite (@C74_component_jacobians K V dof ks states fl c (at_ value c) i (value k0) uk uc (sub ci) szf _ li k0) ?size_map //.
  by rewrite /states (nth_map k0).
have -> : zip cs [seq (c_err c (at_ value c), c_det c (at_ value c), at_ value c) | c <- cs] =
   [seq (c, (c_err c (at_ value c), c_det c (at_ value c), at_ value c)) | c <- cs].
  by elim: (cs) => //= x l ->.
rewrite -map_comp /=; elim: (cs) h => [|x l IH] /= h; first by case: ifP.
rewrite h; last by left.
by rewrite IH; [case: ifP|move=> c ci; apply: h; right].
Qed.

(** gradient of the mixture cost with respect to a state: component gradients weighted by the
    posterior probabilities *)
Definition mixture_grad (k : K) (col : nat) : R :=
  rsum [seq posterior cs ws value wc * comp_gradient value wc.2 k col | wc <- zip ws cs].
Lemma jte_Jof i k0 c col : jte (Jof i k0 c) (err value c) col = comp_gradient value c (nth k0 ks i) col.
Proof.
rewrite /Jof /comp_gradient; case: ifP => // _; rewrite /jte /zero_jac /=.
elim: (err value c) => //= x e ->; rewrite nth_nseq; case: ifP => _; ring.
Qed.
Let Js i k0 := [seq Jof i k0 c | c <- cs].
Let j0 := Jac 0 [::].
Lemma rowsJs i k0 : (i < size ks)%N -> forall k, (k < size es)%N -> size (j_rows (nth j0 (Js i k0) k)) = size (e_val (nth e0 es k)).
Proof.
move=> li k; rewrite size_map => lk; rewrite !(nth_map c0) // /Jof -/(err value _).
case: ifP => [kin|_]; last by rewrite size_nseq.
by have [_ _ h] := wf (In_nth c0 lk); have [->] := h _ kin.
Qed.
Lemma colsJs i k0 k : (k < size cs)%N -> j_cols (nth j0 (Js i k0) k) = dof (value (nth k0 ks i)).
Proof.
move=> lk; rewrite (nth_map c0) // /Jof; case: ifP => // kin.
by have [_ _ h] := wf (In_nth c0 lk); have [_ ->] := h _ kin.
Qed.
Lemma gradE i k0 col : mixture_gradient alphas es j0 (Js i k0) col = mixture_grad (nth k0 ks i) col.
Proof.
rewrite /mixture_gradient /mixture_grad size_map; congr rsum.
rewrite [RHS](map_iota _ _ (0, c0)) szz; apply/eq_in_map => k; rewrite mem_iota add0n => /andP [_ lk].
by rewrite respE // (nth_map c0) // (nth_map c0) // -/(err value _) jte_Jof nth_zip ?szw.
Qed.

(** what a list of mixture Jacobians must be: one entry per state, absent where not requested, and
    J^T e the gradient [g] of the cost *)
Definition jacobians_ok (e : seq R) (g : K -> nat -> R) (js : seq (option jac)) : Prop :=
  size js = size ks /\ forall i k0, (i < size ks)%N ->
    if nth false fl i then exists2 J, nth None js i = Some J &
       forall col, (col < dof (value (nth k0 ks i)))%N -> jte J e col = g (nth k0 ks i) col
    else nth None js i = None.

Lemma jacs_ok (mix : seq (option jac) -> result (option jac)) e g :
  mix [seq None | c <- cs] = Ok None ->
  (forall i k0, (i < size ks)%N -> exists2 J, mix [seq Some J | J <- Js i k0] = Ok (Some J) &
     forall col, (col < dof (value (nth k0 ks i)))%N -> jte J e col = g (nth k0 ks i) col) ->
  exists2 js, mapM (fun i => mix (wrt i)) (iota 0 (size states)) = Ok js & jacobians_ok e g js.
Proof.
move=> hN hS.
have h i : List.In i (iota 0 (size states)) -> exists o, mix (wrt i) = Ok o /\ forall k0, 
    if nth false fl i then exists2 J, o = Some J & forall col, (col < dof (value (nth k0 ks i)))%N -> jte J e col = g (nth k0 ks i) col
    else o = None.
  move=> /(In_index 0%N) [j]; rewrite size_iota => lj; rewrite nth_iota // add0n => <-.
  rewrite /states size_map in lj.
  have [k1 E1] : exists k1 : K, True by case: (ks) lj => // k1; exists k1.
  have wE := wrtE k1 lj; case: (nth false fl j) wE => wE; rewrite wE; last by exists None.
  have [J eJ gJ] := hS _ k1 lj; exists (Some J); rewrite /Js -map_comp in eJ; split=> // k0; exists J => // col.
  by rewrite (set_nth_default k1 k0 lj); exact: gJ.
have [g2 hg2] : exists g2 : nat -> option jac, forall i, List.In i (iota 0 (size states)) -> mix (wrt i) = Ok (g2 i).
  exists (fun i => if mix (wrt i) is Ok o then o else None) => i /h [o [-> _]] //.
exists [seq g2 i | i <- iota 0 (size states)]; first by apply: mapM_ok.
split; first by rewrite size_map size_iota size_map.
move=> i k0 li; have lis : (i < size states)%N by rewrite size_map.
rewrite (nth_map 0%N) ?size_iota // nth_iota // add0n.
have ii : List.In i (iota 0 (size states)) by rewrite -{1}[i]add0n -(nth_iota 0 _ lis); apply: In_nth; rewrite size_iota.
have [o [eo ho]] := h _ ii; move: (ho k0); have := hg2 _ ii; rewrite eo => -[->].
by [].
Qed.

Let ks0 : (0 < size fl)%N -> exists b r, fl = b :: r.
Proof. by case: fl => // b r; exists b, r. Qed.

(** C42, C74: the error is that of the value theorems, and the Jacobians are those of the cost *)
Theorem C42_evaluate_sum : (0 < size (mix_keys cs))%N -> exists e js,
  [/\ mixture_evaluate dof SumMixture cs ws states None = Ok (e, None),
      mixture_evaluate dof SumMixture cs ws states (Some fl) = Ok (e, Some js) & jacobians_ok e mixture_grad js].
Proof.
move=> k0; have [b [r fE]] : exists b r, fl = b :: r by apply: ks0; rewrite szf.
have [e [ee _ _]] := C39_sum_mixture valid_mix.
have [|i k1 li|js ejs hjs] := @jacs_ok (sum_mixture_jac alphas es e) [:: e] mixture_grad.
- rewrite /sum_mixture_jac; have [m ->] : exists m, pymin [seq sq (e_val e) | e <- es] = Ok m by apply: pymin_ok; rewrite !size_map.
  by case: (cs) n0.
- have szJ : size (Js i k1) = size es by rewrite !size_map.
  have [J [eJ hJ]] := @C42_sum_mixture alphas es valid_mix j0 (Js i k1) szJ e ee; exists J => // col lc.
  by rewrite hJ ?gradE // colsJs.
exists [:: e], js; split=> //; rewrite eval_unfold ee //.
by move: ejs; rewrite /wrt fE => ejs; rewrite [LHS]/= ejs.
Qed.

Theorem C42_evaluate_hessian_sum : (0 < size (mix_keys cs))%N -> sumn [seq size (err value c) | c <- cs] <> 1%N -> exists e js,
  [/\ mixture_evaluate dof HessianSumMixture cs ws states None = Ok (e, None),
      mixture_evaluate dof HessianSumMixture cs ws states (Some fl) = Ok (e, Some js) & jacobians_ok e mixture_grad js].
Proof.
move=> k0 h1; have [b [r fE]] : exists b r, fl = b :: r by apply: ks0; rewrite szf.
have ts : total_size es <> 1%N by rewrite /total_size /es -map_comp.
have [e [ee _]] := C41_hessian_sum_mixture valid_mix ts.
set drho := [seq _ | k <- _] in ee.
have [|i k1 li|js ejs hjs] := @jacs_ok (hsm_jac drho) e mixture_grad.
- by rewrite /hsm_jac; case: (cs) n0.
- have szJ : size (Js i k1) = size es by rewrite !size_map.
  have [J [eJ hJ]] := @C42_hessian_sum_mixture alphas es valid_mix j0 (Js i k1) szJ (rowsJs k1 li) e drho ee.
  by exists J => // col lc; rewrite hJ gradE.
exists e, js; split=> //; rewrite eval_unfold ee //.
by move: ejs; rewrite /wrt fE => ejs; rewrite [LHS]/= ejs.
Qed.

Theorem C42_evaluate_max_sum damping : (0 < size (mix_keys cs))%N -> 0 < damping ->
  (forall c, List.In c cs -> e_col (c_err c (at_ value c)) = false) -> exists e js,
  [/\ mixture_evaluate dof (MaxSumMixture damping) cs ws states None = Ok (e, None),
      mixture_evaluate dof (MaxSumMixture damping) cs ws states (Some fl) = Ok (e, Some js) & jacobians_ok e mixture_grad js].
Proof.
move=> k0 d0 flat; have [b [r fE]] : exists b r, fl = b :: r by apply: ks0; rewrite szf.
have [|e [nl [k [amax [ee dk _ _ _]]]]] := C40_max_sum_mixture valid_mix (Rlt_le _ _ d0).
  by move=> k; rewrite size_map => lk; rewrite (nth_map c0) //; apply: flat; exact: In_nth.
have [|i k1 li|js ejs hjs] := @jacs_ok (max_sum_jac alphas es nl k) e mixture_grad.
- by rewrite /max_sum_jac; case: (cs) n0.
- have szJ : size (Js i k1) = size es by rewrite !size_map.
  have cJ m : (m < size es)%N -> j_cols (nth j0 (Js i k1) m) = j_cols (nth j0 (Js i k1) 0).
    by rewrite size_map => lm; rewrite !colsJs.
  have [J [eJ hJ]] := @C42_max_sum_mixture alphas es valid_mix j0 (Js i k1) szJ (rowsJs k1 li) damping e nl k d0 ee.
  by exists J => // col lc; rewrite hJ ?gradE // colsJs.
exists e, js; split=> //; rewrite eval_unfold ee //.
by move: ejs; rewrite /wrt fE => ejs; rewrite [LHS]/= ejs.
Qed.

(** max mixture: the Jacobian is that of the dominant component *)
Theorem C42_evaluate_max : (0 < size (mix_keys cs))%N -> exists e js wc,
  let f (wc : R * component) := - ln (alpha_ ws value wc * exp (- (1/2) * sq (err value wc.2))) in
  [/\ mixture_evaluate dof MaxMixture cs ws states None = Ok (e, None),
      mixture_evaluate dof MaxMixture cs ws states (Some fl) = Ok (e, Some js),
      List.In wc (zip ws cs), forall wc', List.In wc' (zip ws cs) -> f wc <= f wc' &
      jacobians_ok e (comp_gradient value wc.2) js].
Proof.
move=> k0; have [b [r fE]] : exists b r, fl = b :: r by apply: ks0; rewrite szf.
have [e [k [amax [ee [lk dk] _ _ _]]]] := C38_max_mixture valid_mix.
have fE2 j : (j < size cs)%N -> - ln (alpha_ ws value (nth (0, c0) (zip ws cs) j) * exp (- (1/2) * sq (err value (nth (0, c0) (zip ws cs) j).2)))
   = - ln (nth 0 alphas j) + half_sq (e_val (nth e0 es j)).
  move=> lj; rewrite ln_mult; [|by rewrite -alpha_nth //; exact: alpha_pos|exact: exp_pos].
  by rewrite ln_exp -alpha_nth // (nth_map c0) // nth_zip ?szw //= /half_sq /err; ring.
have lk' := lk; rewrite size_map in lk' dk.
have [|i k1 li|js ejs hjs] := @jacs_ok (fun l => Ok (max_mixture_jac k l)) e (comp_gradient value (nth c0 cs k)).
- by rewrite /max_mixture_jac (nth_map c0).
- have szJ : size (Js i k1) = size es by rewrite !size_map.
  have [J [eJ hJ]] := @C42_max_mixture alphas es valid_mix j0 (Js i k1) szJ (rowsJs k1 li) e k ee.
  by exists J => [|col lc]; rewrite ?eJ // hJ !(nth_map c0) // -/(err value _) jte_Jof.
exists e, js, (nth (0, c0) (zip ws cs) k) => f; split.
- by rewrite eval_unfold ee.
- by move: ejs; rewrite eval_unfold ee /wrt fE => ejs; rewrite [LHS]/= ejs.
- by apply: In_nth; rewrite szz.
- by move=> wc' /(In_index (0, c0)) [j lj <-]; rewrite szz in lj; rewrite /f !fE2 //; exact: dk.
- by rewrite nth_zip ?szw.
Qed.
End Jacs.
End One.

(** C74: only the proportions of the weights matter *)
Theorem C74_weight_scale kd cs (ws : seq R) (states : seq V) flags (q : R) : q <> 0 -> rsum ws <> 0 ->
  mixture_evaluate dof kd cs [seq q * w | w <- ws] states flags = mixture_evaluate dof kd cs ws states flags.
Proof.
move=> c0 s0; suff e : norm_weights [seq q * w | w <- ws] = norm_weights ws by rewrite /mixture_evaluate e.
rewrite /norm_weights; have -> : rsum [seq q * w | w <- ws] = q * rsum ws.
  by elim: (ws) => [|w l IH] /=; [ring|rewrite IH; ring].
by rewrite -map_comp; apply: eq_map => w /=; field.
Qed.
End E2E.

(** ** Witness: two components sharing a key, weights 2 and 6 *)
Definition w_comp (ks : seq nat) (x : R) : GmModel.component nat_eqType R :=
  Component ks (fun vs => Earr [:: nth 0 vs 0 - x; 1] true)
    (fun vs j => Jac 1 (if j == 0%N then [:: [:: 1]; [:: 0]] else [:: [:: 0]; [:: 0]])) (fun _ => 2).
Definition w_cs := [:: w_comp [:: 3; 1]%N 5; w_comp [:: 1; 2]%N 7].
Definition w_value (k : nat) : R := INR k.
Example w_hyps : [/\ (0 < size w_cs)%N, size [:: 2; 6] = size w_cs, forall w, List.In w [:: 2; 6] -> 0 < w,
  forall c, List.In c w_cs -> wf_component (fun=> 1%N) w_value c &
  mix_keys w_cs = [:: 3; 1; 2]%N /\ sumn [seq size (err w_value c) | c <- w_cs] <> 1%N].
Proof.
split=> // [w|c].
  by move=> /= [<-|[<-|[]]]; lra.
by move=> /= [<-|[<-|[]]]; split=> //=; try lra; move=> k; rewrite !inE => /orP [] /eqP ->.
Qed.

Print Assumptions C38_evaluate.
Print Assumptions C39_evaluate.
Print Assumptions C40_evaluate.
Print Assumptions C40_evaluate_refuted.
Print Assumptions C41_evaluate.
Print Assumptions C42_evaluate_max.
Print Assumptions C42_evaluate_sum.
Print Assumptions C42_evaluate_max_sum.
Print Assumptions C42_evaluate_hessian_sum.
Print Assumptions C74_weight_scale.
