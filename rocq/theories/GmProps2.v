(** C42, C74: Jacobians and component bookkeeping of Gaussian-mixture residuals. *)
From Coq Require Import Reals Lra Psatz.
From Coquelicot Require Import Coquelicot.
From mathcomp Require Import ssreflect ssrfun ssrbool eqtype ssrnat seq.
From Verif Require Import Base GmModel GmProps.
Set Implicit Arguments.
Unset Strict Implicit.
Unset Printing Implicit Defensive.
Local Open Scope R_scope.

Lemma jte_vstack A B e g c : size (j_rows A) = size e -> jte (vstack A B) (e ++ g) c = jte A e c + jte B g c.
Proof. by move=> sz; rewrite /jte /vstack /= zip_cat // map_cat rsum_cat. Qed.
Lemma jte_row n (g : nat -> R) x c : (c < n)%N -> jte (Jac n [:: row n g]) [:: x] c = g c * x.
Proof. by move=> lt; rewrite /jte /= /row (nth_map 0%N) ?size_iota // nth_iota // Rplus_0_r. Qed.
Lemma jte_zero n m x c : jte (Jac n [:: nseq m 0]) [:: x] c = 0.
Proof. by rewrite /jte /= nth_nseq; case: ifP => _; ring. Qed.
Lemma jte_scale s t J e c : jte (jscale s J) (rscale t e) c = s * t * jte J e c.
Proof.
rewrite /jte /jscale /rscale /=; elim: (j_rows J) e => [|r rs IH] [|x e] /=; try ring.
rewrite IH; have -> : nth 0 [seq s * x | x <- r] c = s * nth 0 r c; last by ring.
elim: r c {IH} => [|y r IH] [|c] //=; by ring.
Qed.
Lemma all_some_map T (s : seq T) : all_some [seq Some x | x <- s] = Some s.
Proof. by elim: s => //= x s ->. Qed.
Lemma pymin_ok s : (0 < size s)%N -> exists m, pymin s = Ok m.
Proof. by case: s => // x s _; eexists. Qed.

(** Gradient of the mixture cost: responsibility-weighted component gradients. *)
Definition mixture_gradient (alphas : seq R) (es : seq earr) (j0 : jac) (Js : seq jac) (c : nat) : R :=
  rsum [seq responsibility alphas es k * jte (nth j0 Js k) (e_val (nth e0 es k)) c | k <- iota 0 (size es)].

Section Grad.
Variables (alphas : seq R) (es : seq earr).
Hypothesis v : valid alphas es.
Variables (j0 : jac) (Js : seq jac).
Hypothesis szJ : size Js = size es.
Hypothesis rowsJ : forall k, (k < size es)%N -> size (j_rows (nth j0 Js k)) = size (e_val (nth e0 es k)).
Hypothesis colsJ : forall k, (k < size es)%N -> j_cols (nth j0 Js k) = j_cols (nth j0 Js 0).
Let an : size alphas = size es. Proof. by case: v. Qed.
Let js := [seq Some x | x <- Js].
Let js_nth k : (k < size es)%N -> nth None js k = Some (nth j0 Js k).
Proof. by move=> lk; rewrite /js (nth_map j0) ?szJ. Qed.
Let n0 : (0 < size es)%N. Proof. by case: v. Qed.

(** C42: max-mixture: gradient of the dominant component *)
Theorem C42_max_mixture e k : max_mixture_errors alphas es = Ok (e, k) ->
  exists J, max_mixture_jac k js = Some J /\ forall c, jte J e c = jte (nth j0 Js k) (e_val (nth e0 es k)) c.
Proof.
have [e' [k' [m [e38 [lk _] _ _ _]]]] := C38_max_mixture v.
move=> h; move: (h); rewrite e38 => -[e1 e2]; subst e' k'; move: h {e38}.
rewrite /max_mixture_errors.
case: (res_values _ _) => //= rv; case: (argmin _) => //= k1; case: (pymax _) => //= am.
case: (np_log _) => //= l; case: (np_sqrt _) => //= s [ee ek]; subst k1.
rewrite /max_mixture_jac js_nth //; eexists; split; first by reflexivity.
by move=> c; rewrite -ee jte_vstack ?rowsJ // jte_zero Rplus_0_r.
Qed.

Lemma drho_of c : [seq ae.1 * ae.2 / rsum [seq ae.1 * ae.2 | ae <- zip alphas [seq exp (- (1/2) * x + c) | x <- [seq sq (e_val e) | e <- es]]]
    | ae <- zip alphas [seq exp (- (1/2) * x + c) | x <- [seq sq (e_val e) | e <- es]]]
  = [seq responsibility alphas es k | k <- iota 0 (size es)].
Proof.
have lp := likelihood_pos v; rewrite -map_comp.
have E k : (k < size es)%N -> nth 0 [seq ((fun x => exp (- (1/2) * x + c)) \o (fun e => sq (e_val e))) i | i <- es] k = exp c * exp (- half_sq (e_val (nth e0 es k))).
  by move=> lk; rewrite (nth_map e0) //= -exp_plus; congr exp; rewrite /half_sq; ring.
have -> : rsum [seq ae.1 * ae.2 | ae <- zip alphas [seq ((fun x => exp (- (1/2) * x + c)) \o (fun e => sq (e_val e))) i | i <- es]] = exp c * likelihood alphas es.
  rewrite likelihoodE // -sumn_scale (map_zip_iota _ 0 0) ?size_map ?an //; apply: sumn_ext => k lk /=.
  by rewrite E //; ring.
rewrite (map_zip_iota _ 0 0) ?size_map ?an //; apply/eq_in_map => k; rewrite mem_iota add0n => /andP [_ lk] /=.
by rewrite E // /responsibility; have := exp_pos c => ep; field; split; lra.
Qed.

Lemma grad_zip c (G : R -> R -> R) : (forall x y, G x y = x * y) ->
  rsum [seq G de.1 de.2 | de <- zip [seq responsibility alphas es k | k <- iota 0 (size es)] [seq jte jx.2 (e_val jx.1) c | jx <- zip es Js]]
  = mixture_gradient alphas es j0 Js c.
Proof.
move=> hG; rewrite (map_zip_iota _ 0 0) ?size_map ?size_iota ?size_zip ?szJ ?minnn //.
apply: sumn_ext => k lk /=; rewrite hG (nth_map 0%N) ?size_iota // nth_iota // add0n.
by rewrite (nth_map (e0, j0)) ?size_zip ?szJ ?minnn // nth_zip.
Qed.

(** C42: sum-mixture *)
Theorem C42_sum_mixture e : sum_mixture_error alphas es = Ok e ->
  exists J, sum_mixture_jac alphas es e js = Ok (Some J) /\
    forall c, (c < j_cols (nth j0 Js 0))%N -> jte J [:: e] c = mixture_gradient alphas es j0 Js c.
Proof.
have [e' [-> ep _]] := C39_sum_mixture v; case=> ee; subst e'.
rewrite /sum_mixture_jac.
have [m em] : exists m, pymin [seq sq (e_val e1) | e1 <- es] = Ok m by apply: pymin_ok; rewrite size_map.
rewrite em /= js_nth // all_some_map; eexists; split; first by reflexivity.
move=> c lc; rewrite jte_row // drho_of (grad_zip c (G := Rmult)) //.
by field; lra.
Qed.

Lemma zip_exp (al ds : seq R) (F G : R * R -> R) : (forall x y, F (x, y) = G (x, exp y)) ->
   [seq F ae | ae <- zip al ds] = [seq G ae | ae <- zip al [seq exp d | d <- ds]].
Proof. by move=> h; elim: al ds => [|x al IH] [|d ds] //=; rewrite IH h. Qed.
Lemma drho_max_sum k : [seq ae.1 * exp ae.2 / rsum [seq ae.1 * exp ae.2 | ae <- zip alphas [seq - (1/2) * sq (e_val e) + (1/2) * sq (e_val (nth e0 es k)) | e <- es]]
    | ae <- zip alphas [seq - (1/2) * sq (e_val e) + (1/2) * sq (e_val (nth e0 es k)) | e <- es]]
  = [seq responsibility alphas es k | k <- iota 0 (size es)].
Proof.
have := drho_of ((1/2) * sq (e_val (nth e0 es k))); rewrite -!map_comp => <-.
set ds := [seq _ | e <- es].
have -> : [seq ((fun x => exp (- (1/2) * x + (1/2) * sq (e_val (nth e0 es k)))) \o (fun e => sq (e_val e))) i | i <- es] = [seq exp d | d <- ds].
  by rewrite /ds -map_comp.
rewrite (@zip_exp alphas ds (fun ae => ae.1 * exp ae.2) (fun ae => ae.1 * ae.2)) //.
exact: zip_exp.
Qed.

(** C42: max-sum-mixture (damping > 0) *)
Theorem C42_max_sum_mixture damping e nl k : 0 < damping -> max_sum_errors damping alphas es = Ok (e, nl, k) ->
  exists J, max_sum_jac alphas es nl k js = Ok (Some J) /\
    forall c, (c < j_cols (nth j0 Js 0))%N -> jte J e c = mixture_gradient alphas es j0 Js c.
Proof.
move=> d0; rewrite /max_sum_errors; have [rv [-> szv hv]] := res_values_ok v.
have [k' [ek lk hk]] : exists k, [/\ argmin rv = Ok k, (k < size rv)%N & forall j, (j < size rv)%N -> nth 0 rv k <= nth 0 rv j].
  by apply: argmin_ok; rewrite szv.
have dk : dominant alphas es k' by rewrite szv in lk hk; split=> // j lj; rewrite -!hv //; exact: hk.
have [nl' [enl [m [hm [jm ljm ejm]] en]]] := max_sum_nonlinear v (Rlt_le _ _ d0) dk.
rewrite /= ek /= enl /=; case: ifP => // _ [ee enl' ekk]; subst nl' k'.
have lk' := dk.1.
have nl0 : nl <> 0.
  move=> z.
  have [nl2 [enl2 [m2 [hm2 [jm2 ljm2 ejm2]] en2]]] := max_sum_nonlinear v (Rle_refl 0) dk.
  have mm : m = m2 by apply: Rle_antisym; [rewrite -ejm; exact: hm2|rewrite -ejm2; exact: hm].
  have sq0 : 0 <= nl2 * nl2 by exact: Rle_0_sqr.
  have mp : 0 < m by rewrite -ejm; case: v => e1 _ h; apply: h; rewrite e1.
  have np : 0 < INR (size es) by apply: lt_0_INR; apply/ltP.
  have q0 : 0 < INR (size es) * m by exact: Rmult_lt_0_compat.
  have := ln_increasing _ _ q0 (_ : INR (size es) * m < INR (size es) * m + damping).
  move=> /(_ ltac:(lra)); rewrite z in en; rewrite -mm Rplus_0_r in en2; lra.
rewrite /max_sum_jac js_nth // all_some_map; eexists; split; first by reflexivity.
have nk : nth (nth j0 Js 0) Js k = nth j0 Js k by apply: set_nth_default; rewrite szJ.
move=> c lc; rewrite -ee jte_vstack; last by rewrite nk rowsJ.
rewrite jte_row // drho_max_sum (grad_zip c (G := fun x y => - x * - y)); last by move=> *; ring.
by rewrite nk; field.
Qed.

(** C42: Hessian-sum-mixture *)
Theorem C42_hessian_sum_mixture e drho : hsm_errors alphas es = Ok (e, drho) ->
  exists J, hsm_jac drho js = Ok (Some J) /\ forall c, jte J e c = mixture_gradient alphas es j0 Js c.
Proof.
move=> h; have ts : total_size es <> 1%N.
  move=> ts; move: h; rewrite /hsm_errors; case: (hsm_constant _) => //= nc; case: (argmin _) => //= k.
  case em : (mapM _ _) => [sd|] //=; case: (np_log _) => //= l.
  rewrite hsm_size ?ts //.
  have : size sd = size (hsm_drho alphas [seq 1 / 2 * sq (e_val e) | e <- es] k).
    by elim: (hsm_drho _ _ _) sd em => [|x s IH] sd /=; [case=> <-|case: (np_sqrt _) => //= y; case: (mapM _ _) IH => //= r IH [<-]; rewrite /= (IH r)].
  by rewrite size_map size_zip size_map an minnn.
have [e' [eh _]] := C41_hessian_sum_mixture v ts; move: (h); rewrite eh => -[ee ed]; subst e' drho.
have rp k : (k < size es)%N -> 0 < responsibility alphas es k by move=> lk; exact: (resp_pos v lk).
have rs : mapM np_sqrt [seq responsibility alphas es k | k <- iota 0 (size es)] = Ok [seq sqrt x | x <- [seq responsibility alphas es k | k <- iota 0 (size es)]].
  apply: mapM_sqrt => i; rewrite size_map size_iota => li; rewrite (nth_map 0%N) ?size_iota // nth_iota //.
  by apply: Rlt_le; exact: rp.
rewrite /hsm_jac js_nth // all_some_map rs /=; eexists; split; first by reflexivity.
move=> c; move: h; rewrite /hsm_errors; case: (hsm_constant _) => //= nc; case: (argmin _) => //= k.
rewrite /hsm_drho (hsm_drhoE v) -/(responsibility alphas es).
have -> : [seq nth 0 alphas k0 * exp (- half_sq (e_val (nth e0 es k0))) / likelihood alphas es | k0 <- iota 0 (size es)] = [seq responsibility alphas es k | k <- iota 0 (size es)] by [].
rewrite rs /=; case: (np_log _) => //= l; case: ifP => // _; case: (np_sqrt _) => //= d [<-].
set A := flatten _; set B := flatten _.
have gen (w : seq R) (Jl : seq jac) (el : seq earr) : size w = size el -> size Jl = size el ->
   (forall k, (k < size el)%N -> size (j_rows (nth j0 Jl k)) = size (e_val (nth e0 el k))) ->
   size (flatten [seq j_rows (jscale dj.1 dj.2) | dj <- zip w Jl]) = size (flatten [seq rscale de.1 (e_val de.2) | de <- zip w el]) /\
   rsum [seq nth 0 rx.1 c * rx.2 | rx <- zip (flatten [seq j_rows (jscale dj.1 dj.2) | dj <- zip w Jl]) (flatten [seq rscale de.1 (e_val de.2) | de <- zip w el])]
   = rsum [seq nth 0 w k * nth 0 w k * jte (nth j0 Jl k) (e_val (nth e0 el k)) c | k <- iota 0 (size el)].
  elim: w Jl el => [|x w IH] [|J Jl] [|e1 el] //= [sw] [sj] hr.
  have hr' : forall k, (k < size el)%N -> size (j_rows (nth j0 Jl k)) = size (e_val (nth e0 el k)) by move=> i li; exact: (hr i.+1).
  have [s1 s2] := IH Jl el sw sj hr'.
  have s0 : size (j_rows (jscale x J)) = size (rscale x (e_val e1)) by rewrite /jscale /= !size_map; exact: (hr 0%N).
  split; first by rewrite !size_cat s1 s0.
  rewrite zip_cat // map_cat rsum_cat s2; congr (_ + _).
    by have := jte_scale x x J (e_val e1) c; rewrite {1}/jte.
  by rewrite (iotaDl 1 0) -map_comp.
have [|g1 g2] := gen [seq sqrt x | x <- [seq responsibility alphas es k | k <- iota 0 (size es)]] Js es _ szJ rowsJ.
  by rewrite !size_map size_iota.
rewrite -/A -/B in g1 g2.
rewrite /jte /= zip_cat // map_cat rsum_cat /= g2.
have -> : nth 0 (nseq (j_cols (nth j0 Js 0)) 0) c * d + 0 = 0 by rewrite nth_nseq; case: ifP => _; ring.
rewrite Rplus_0_r; apply: sumn_ext => i li.
rewrite (nth_map 0) ?size_map ?size_iota // (nth_map 0%N) ?size_iota // nth_iota // add0n sqrt_sqrt //.
by apply: Rlt_le; exact: rp.
Qed.
End Grad.

(** *** The mixture gradient is the derivative of the negative log-likelihood *)
Lemma is_derive_rsum m n (F : nat -> R -> R) (D : nat -> R) t : (forall k, (m <= k < m + n)%N -> is_derive (F k) t (D k)) ->
  is_derive (fun s => rsum [seq F k s | k <- iota m n]) t (rsum [seq D k | k <- iota m n]).
Proof.
elim: n m => [|n IH] m h /=; first exact: is_derive_const.
apply: (is_derive_plus (F m)); first by apply: h; rewrite leqnn addnS ltnS leq_addr.
by apply: IH => k /andP [a b]; apply: h; rewrite (ltnW a) addnS -addSn.
Qed.
Section Calculus.
Variables (alphas : seq R) (dims : nat -> nat) (e : nat -> nat -> R -> R) (d : nat -> nat -> R) (t : R).
(** errors along a path s |-> x(s) *)
Definition errors_at (s : R) : seq earr :=
  [seq Earr [seq e k i s | i <- iota 0 (dims k)] true | k <- iota 0 (size alphas)].
Theorem C42_gradient_is_derivative : (0 < size alphas)%N -> (forall k, (k < size alphas)%N -> 0 < nth 0 alphas k) ->
  (forall k i, (k < size alphas)%N -> (i < dims k)%N -> is_derive (e k i) t (d k i)) ->
  is_derive (fun s => nll alphas (errors_at s)) t
    (rsum [seq responsibility alphas (errors_at t) k * rsum [seq e k i t * d k i | i <- iota 0 (dims k)] | k <- iota 0 (size alphas)]).
Proof.
move=> n0 pos der.
have sz s : size (errors_at s) = size alphas by rewrite size_map size_iota.
have val s : valid alphas (errors_at s) by split; rewrite ?sz.
pose h k s := half_sq [seq e k i s | i <- iota 0 (dims k)].
have fE s k : (k < size alphas)%N -> half_sq (e_val (nth e0 (errors_at s) k)) = h k s.
  by move=> lk; rewrite (nth_map 0%N) ?size_iota // nth_iota.
have LE s : likelihood alphas (errors_at s) = sumn_ (size alphas) (fun k => nth 0 alphas k * exp (- h k s)).
  rewrite (likelihoodE (val s)) sz; apply: sumn_ext => k lk; by rewrite fE.
have dh k : (k < size alphas)%N -> is_derive (h k) t (rsum [seq e k i t * d k i | i <- iota 0 (dims k)]).
  move=> lk; rewrite /h /half_sq /sq.
  apply: (is_derive_ext (fun s => 1 / 2 * rsum [seq e k i s * e k i s | i <- iota 0 (dims k)])).
    by move=> s; rewrite -map_comp.
  have -> : rsum [seq e k i t * d k i | i <- iota 0 (dims k)] = 1 / 2 * rsum [seq 2 * (e k i t * d k i) | i <- iota 0 (dims k)].
    by rewrite sum_scale; field.
  apply: is_derive_scal; apply: is_derive_rsum => i /andP [_ li].
  have -> : 2 * (e k i t * d k i) = d k i * e k i t + e k i t * d k i by ring.
  by apply: is_derive_mult; [exact: der|exact: der|move=> *; exact: Rmult_comm].
have dL : is_derive (fun s => likelihood alphas (errors_at s)) t
   (sumn_ (size alphas) (fun k => nth 0 alphas k * (- rsum [seq e k i t * d k i | i <- iota 0 (dims k)] * exp (- h k t)))).
  apply: (is_derive_ext (fun s => sumn_ (size alphas) (fun k => nth 0 alphas k * exp (- h k s)))).
    by move=> s; rewrite LE.
  apply: is_derive_rsum => k /andP [_ lk]; apply: is_derive_scal.
  apply: (is_derive_comp exp (fun s => - h k s)); first by apply/is_derive_Reals; exact: derivable_pt_lim_exp.
  by apply: is_derive_opp; exact: dh.
have Lp := likelihood_pos (val t).
have -> : rsum [seq responsibility alphas (errors_at t) k * rsum [seq e k i t * d k i | i <- iota 0 (dims k)] | k <- iota 0 (size alphas)]
  = - (sumn_ (size alphas) (fun k => nth 0 alphas k * (- rsum [seq e k i t * d k i | i <- iota 0 (dims k)] * exp (- h k t))) * / likelihood alphas (errors_at t)).
  rewrite Rmult_comm Ropp_mult_distr_l -sumn_scale; apply: sumn_ext => k lk.
  by rewrite /responsibility fE // /Rdiv; ring.
apply: is_derive_opp; apply: (is_derive_comp ln (fun s => likelihood alphas (errors_at s))) dL.
by apply/is_derive_Reals; apply: derivable_pt_lim_ln.
Qed.
End Calculus.

(** *** C74: component bookkeeping *)
Section Book.
Variables (K : eqType) (V : Type) (dof : V -> nat).
Notation component := (component K V).
Implicit Types (c : component) (cs : seq component).

Lemma union_keys (l acc : seq K) : uniq acc ->
  let r := foldl (fun ks k => if k \in ks then ks else rcons ks k) acc l in uniq r /\ r =i acc ++ l.
Proof.
elim: l acc => [|k l IH] acc u /=; first by split=> // x; rewrite cats0.
have [kin|ni] := boolP (k \in acc).
  have [h1 h2] := IH acc u; split=> // x; rewrite h2 !mem_cat inE; case: (x =P k) => // ->; by rewrite kin orbT.
have [|h1 h2] := IH (rcons acc k); first by rewrite rcons_uniq ni.
by split=> // x; rewrite h2 !mem_cat mem_rcons !inE; case: (x == k); rewrite ?orbT.
Qed.
(** the mixture's keys: each key of each component, once *)
Theorem C74_keys cs : uniq (mix_keys cs) /\ forall k, (k \in mix_keys cs) = has (fun c => k \in c_keys c) cs.
Proof.
have [|u m] := @union_keys (flatten [seq c_keys c | c <- cs]) [::]; first by [].
split=> // k; rewrite /mix_keys m cat0s; elim: cs {u m} => //= c cs IH.
by rewrite mem_cat IH.
Qed.
(** each component is evaluated at the states of its own keys, in its own order *)
Theorem C74_component_states cs (value : K -> V) i c0 : (i < size cs)%N ->
  comp_states (mix_keys cs) [seq value k | k <- mix_keys cs] (nth c0 cs i) = Ok [seq value k | k <- c_keys (nth c0 cs i)].
Proof.
move=> li; rewrite /comp_states.
have : {subset c_keys (nth c0 cs i) <= mix_keys cs}.
  move=> k kin; have [_ ->] := C74_keys cs; elim: cs i li kin => //= c cs IH [|i] li kin; first by rewrite kin.
  by rewrite (IH i) ?orbT.
elim: (c_keys _) => [|k ks IH] sub //=.
have kin : k \in mix_keys cs by apply: sub; rewrite inE eqxx.
rewrite kin /py_nth (drop_nth (value k)); last by rewrite size_map index_mem.
rewrite (nth_map k) ?index_mem // nth_index //= IH // => x xin; apply: sub; by rewrite inE xin orbT.
Qed.
(** Jacobian of a component with respect to the i-th state of the mixture: the
    component's own Jacobian if it depends on that key, zeros otherwise, and None
    when it was not requested. *)
Theorem C74_component_jacobians (ks : seq K) (states : seq V) (flags : seq bool) c vs i v0 :
  uniq ks -> uniq (c_keys c) -> {subset c_keys c <= ks} -> size flags = size ks -> size states = size ks -> (i < size ks)%N ->
  forall k0, let k := nth k0 ks i in
  nth None (comp_jacs dof ks states flags c vs) i =
    if nth false flags i then
      Some (if k \in c_keys c then c_jac c vs (index k (c_keys c))
            else zero_jac (size (e_val (c_err c vs))) (dof (nth v0 states i)))
    else None.
Proof.
move=> uk uc sub szf szs li k0 /=; rewrite /comp_jacs.
set init := [seq _ | fs <- zip flags states].
have szi : size init = size ks by rewrite size_map size_zip szf szs minnn.
have nthi : nth None init i = if nth false flags i then Some (zero_jac (size (e_val (c_err c vs))) (dof (nth v0 states i))) else None.
  by rewrite (nth_map (false, v0)) ?size_zip ?szf ?szs ?minnn // nth_zip ?szf //=.
set k := nth k0 ks i.
have gen m l (acc : seq (option jac)) : uniq l -> {subset l <= ks} ->
   nth None (foldl (fun acc jk => set_nth None acc (index jk.2 ks)
            (if nth false flags (index jk.2 ks) then Some (c_jac c vs jk.1) else None)) acc (zip (iota m (size l)) l)) i
   = if k \in l then (if nth false flags i then Some (c_jac c vs (m + index k l)%N) else None) else nth None acc i.
  elim: l m acc => [|x l IH] m acc //= /andP [nx ul] sb.
  rewrite IH //; last by move=> y yin; apply: sb; rewrite inE yin orbT.
  rewrite inE nth_set_nth /= (eq_sym k x).
  have [exk|ne] /= := x =P k.
    rewrite -exk.
    have ix : index x ks = i by rewrite exk /k index_uniq.
    by rewrite (negbTE nx) ix eqxx addn0.
  case: ifP => _; first by rewrite addnS addSn.
  case: eqP => // ei; case: ne; rewrite /k ei nth_index //; apply: sb; by rewrite inE eqxx.
rewrite gen // nthi; by case: ifP; case: ifP.
Qed.
End Book.

(** ** Non-vacuity *)
Definition wit_as : seq R := [:: 1; 2].
Definition wit_es : seq earr := [:: Earr [:: 1; 3] true; Earr [:: 0; 1] true].
Definition wit_flat : seq earr := [:: Earr [:: 1; 3] false; Earr [:: 0; 1] false].
Definition wit_js : seq jac := [:: Jac 1 [:: [:: 1]; [:: 2]]; Jac 1 [:: [:: 3]; [:: 4]]].
Lemma wit_pos k : (k < 2)%N -> 0 < nth 0 wit_as k.
Proof. by case: k => [|[|]] //= _; lra. Qed.
Example wit_valid : valid wit_as wit_es. Proof. by split=> // k; exact: wit_pos. Qed.
Example wit_valid_flat : valid wit_as wit_flat. Proof. by split=> // k; exact: wit_pos. Qed.
Example wit_rows k : (k < 2)%N -> size (j_rows (nth (Jac 0 [::]) wit_js k)) = size (e_val (nth e0 wit_es k)).
Proof. by case: k => [|[|]]. Qed.
Example wit_sizes : total_size wit_es <> 1%N. Proof. by []. Qed.
(** every residual evaluates on the witness, and its Jacobian exists *)
Example wit_max : exists e k J, max_mixture_errors wit_as wit_es = Ok (e, k) /\ max_mixture_jac k [seq Some x | x <- wit_js] = Some J.
Proof.
have [e [k [m [h [lk _] _ _ _]]]] := C38_max_mixture wit_valid.
have [J [hJ _]] := @C42_max_mixture _ _ wit_valid (Jac 0 [::]) wit_js (erefl _) wit_rows e k h.
by exists e, k, J.
Qed.
Example wit_max_sum : exists e nl k, max_sum_errors (1/2) wit_as wit_flat = Ok (e, nl, k).
Proof.
have [||e [nl [k [m [h _ _ _ _]]]]] := @C40_max_sum_mixture _ _ wit_valid_flat (1/2); [lra|by case=> [|[|]]|].
by exists e, nl, k.
Qed.
Definition wit_c (ks : seq nat) : GmModel.component nat_eqType nat :=
  Component ks (fun vs => Earr [:: INR (size vs)] true) (fun vs j => Jac 2 [:: [:: INR j; 1]]) (fun _ => 1).
Example wit_keys : mix_keys [:: wit_c [:: 3; 1]; wit_c [:: 1; 2]]%N = [:: 3; 1; 2]%N. Proof. by []. Qed.
Example wit_jacs : [seq isSome o | o <- comp_jacs (fun _ => 2%N) [:: 3; 1; 2]%N [:: 30; 10; 20]%N [:: true; false; true] (wit_c [:: 1; 2]%N) [:: 10; 20]%N] = [:: true; false; true].
Proof. by []. Qed.

Print Assumptions C38_max_mixture.
Print Assumptions C39_sum_mixture.
Print Assumptions C40_max_sum_mixture.
Print Assumptions C40_column_errors_refuted.
Print Assumptions C41_hessian_sum_mixture.
Print Assumptions C41_single_scalar_refuted.
Print Assumptions C42_max_mixture.
Print Assumptions C42_sum_mixture.
Print Assumptions C42_max_sum_mixture.
Print Assumptions C42_hessian_sum_mixture.
Print Assumptions C42_gradient_is_derivative.
Print Assumptions C74_keys.
Print Assumptions C74_component_states.
Print Assumptions C74_component_jacobians.
