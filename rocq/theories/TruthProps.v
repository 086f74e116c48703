(** Property theorems C55: datagen -> run_filter, end to end.
    Reading guide: [generate] is DataGenerator.generate without noise (the noise oracles are
    identities), [run_filter] is navlie.run_filter, [ekf_correct]/[ekf_predict] the EKF.
    Times are any Archimedean ordered field. *)
From mathcomp Require Import all_ssreflect all_algebra.
From Verif Require Import Base Tac LinAlg RunFilterModel RunFilterSpec RunFilterProof DatagenModel DatagenProof DatagenProps TruthProof EkfModel.
Set Implicit Arguments.
Unset Strict Implicit.
Unset Printing Implicit Defensive.
Import Order.Theory GRing.Theory Num.Theory.
Local Open Scope ring_scope.

Section Truth.
Variable T : archiFieldType.
Variables (X U Y M E : Type).
Variables (xstamp : X -> T) (restamp : X -> T -> X) (ustamp : U -> T).
Variable f : X -> U -> T -> result X.
Variable uin : T -> X -> U.
Variable meval : M -> X -> option Y.
Variable rnd : T -> T.
Notation meas := (meas T Y M).
Notation evolve := (evolve xstamp restamp f).
Notation generate := (generate xstamp restamp ustamp f uin meval rnd (fun _ u => u) (fun _ y => y)).
Variables (estamp : E -> T) (tracks : E -> X -> Prop).
Variable predict : E -> U -> T -> result E.
Variable correct : E -> meas -> U -> result E.
Variable gap_ok : T -> Prop.

(** every filter whose predict follows the process model and whose correct leaves the state
    alone when the measurement is what the model predicts: run on noiseless data from the
    true initial state, its k-th result is the true state, at a time between the k-th and
    the (k+1)-th ground-truth state *)
Theorem C55_any_filter infos freq x0 start stop xs us ms e0 out after :
  (forall x t, xstamp (restamp x t) = t) -> rounding rnd -> flow_property xstamp restamp f ->
  (forall x u, evolve x u 0 = Ok x) -> (forall t x, ustamp (uin t x) = t) ->
  tracks_stamp xstamp estamp tracks -> predict_truth xstamp restamp f tracks predict ->
  correct_truth xstamp restamp f meval tracks correct gap_ok ->
  proper_schedule infos -> 0 < freq ->
  generate infos freq x0 start stop = Ok (xs, us, ms) ->
  (forall a b, (a \in map xstamp xs) || (a \in map (@me_stamp T Y M) ms) ->
     (b \in map xstamp xs) || (b \in map (@me_stamp T Y M) ms) -> a <= b -> gap_ok (b - a)) ->
  tracks e0 (restamp x0 (rnd start)) ->
  run_filter ustamp (@me_stamp T Y M) estamp correct predict (Some (rnd start)) e0 us ms = (Ok out, after) ->
  size out = (size us).-1 /\ forall k d r0, (k < size out)%N -> exists xr,
    let x := nth d xs k in let x' := nth d xs k.+1 in
    [/\ tracks (nth r0 out k) xr, xstamp x <= xstamp xr <= xstamp x' &
        evolve x (uin (xstamp x) x) (xstamp xr - xstamp x) = Ok xr].
Proof.
move=> sK rP fl ev0 uS tS pT cT pr q0 G gp te.
have [su uE] := C53_inputs sK rP fl pr q0 (fun _ => uS) G.
have [t0 [ts [us' [xs' [e1 tr xE usE [pa _ t0E al]]]]]] := generate_trace sK rP fl pr q0 G.
have [h1 h2 h3] := trace_states sK (sK _ _) tr.
set S := fun a => (a \in map xstamp xs) || (a \in map (@me_stamp T Y M) ms).
have so : sorted <=%O (map (@me_stamp T Y M) (sort_by (@me_stamp T Y M) (blank Y rnd infos t0 (last t0 ts)))).
  by rewrite sorted_map; apply: sort_by_sorted.
have msE : map (@me_stamp T Y M) ms = map (@me_stamp T Y M) (sort_by (@me_stamp T Y M) (blank Y rnd infos t0 (last t0 ts))).
  by have := congr1 (map fst) (trace_strip tr); rewrite -!map_comp.
have us_stamps : forall u, List.In u us -> t0 <= ustamp u.
  move=> u hu; have [i il <-] := In_nth u hu.
  rewrite (uE i x0 u il) uS.
  have il' : (i < size xs)%N by rewrite su ltnS ltnW.
  have tsE : t0 :: ts = map xstamp xs by rewrite xE /= sK h1.
  have : xstamp (nth x0 xs i) \in t0 :: ts by rewrite tsE -(nth_map x0 (xstamp x0)) // mem_nth // size_map.
  rewrite inE => /orP [/eqP -> //|ht].
  by have /allP := order_path_min (@le_trans _ T) pa; apply.
have usS : us' = us.
  rewrite usE; apply/esym/sort_by_id.
  have -> : map ustamp us' = take (size us') (t0 :: ts).
    have su' : size us' = size xs' by rewrite h2 -h1 size_map.
    apply: (@eq_from_nth _ t0) => [|i]; rewrite size_map.
      by rewrite size_take /= h2 leqnn.
    move=> il; have il' : (i < size ts)%N by rewrite -h2.
    have [] := h3 i x0 (uin t0 x0) il'; rewrite (nth_map (uin t0 x0)) // => -> _.
    rewrite uS nth_take //; case: i il il' => [|i] /= il il'; first by rewrite sK.
    by rewrite -h1 (nth_map x0) // -su' ltnW.
  by rewrite take_sorted.
have usso : sorted <=%O (map ustamp us).
  by rewrite usE sorted_map; apply: sort_by_sorted.
have msso : sorted <=%O (map (@me_stamp T Y M) ms) by rewrite msE.
have tu : trim ustamp t0 us = us.
  rewrite trim_sorted; last by rewrite sorted_map in usso.
  by case: ifP => // _; apply/all_filterP; apply: allIn.
have tm : trim (@me_stamp T Y M) t0 ms = ms.
  rewrite trim_sorted; last by rewrite sorted_map in msso.
  case: ifP => // _; apply/all_filterP.
  have := al; rewrite -!(all_map (@me_stamp T Y M) (fun s => t0 <= s)) msE; exact.
rewrite /run_filter !sort_by_id // -t0E tu tm; case=> R _.
rewrite run_loop_spec in R; last by rewrite sorted_map in msso.
rewrite -usS in R *; rewrite xE.
apply: (trace_truth sK fl ev0 tS pT cT uS tr (sK _ _) pa so al (S := S)) R => //.
- apply/allP => a ha; rewrite /S xE /= sK h1; by rewrite ha.
- rewrite -(all_map (@me_stamp T Y M) S) -msE; apply/allP => a ha; by rewrite /S ha orbT.
- by rewrite t0E.
Qed.
End Truth.

(** *** The EKF *)
Section EkfTruth.
Variable T : archiFieldType.
Variables (V U : Type) (n : nat).
Variable plus : V -> 'cV[T]_n -> V.
Variable pm : process_model T V n U.
Variable chi2_99 : nat -> T.
Variable ustamp : U -> T.
(** a measurement model, and the measurement object made of it and of generated data *)
Record mmodel := MModel {
  mm_dim : nat;
  mm_eval : pstate T V -> option 'cV[T]_mm_dim;
  mm_jac : pstate T V -> 'M[T]_(mm_dim, n);
  mm_cov : pstate T V -> 'M[T]_mm_dim }.
Definition mdata := { p : nat & 'cV[T]_p }.
Definition stamped (x : V * T) : pstate T V := PState x.1 (Some x.2).
Definition mmeval (m : mmodel) (x : V * T) : option mdata :=
  omap (fun y => existT (fun p : nat => 'cV[T]_p) (mm_dim m) y) (mm_eval m (stamped x)).
Definition to_measurement (m : meas T mdata mmodel) : measurement T V n :=
  let mm := me_model m in
  Measurement (if me_val m is Some (existT p v) then conform_mx 0 v else 0) (Some (me_stamp m))
    (mm_eval mm) (mm_jac mm) (mm_cov mm).
Definition pm_step (x : V * T) (u : U) (dt : T) : result (V * T) := Ok (sval (pm_eval pm (stamped x) u dt), x.2).
Definition est_stamp (e : est T V n) : T := odflt 0 (sstamp (est_state e)).
Variable reject : bool.
Variable uin : T -> V * T -> U.
Notation restamp := (fun (x : V * T) t => (x.1, t)).
Notation ekf_c := (fun e m u => ekf_correct plus (fun u => Some (ustamp u)) pm chi2_99 e (to_measurement m) (Some u) None reject).
Notation ekf_p := (fun e u dt => ekf_predict (fun u => Some (ustamp u)) pm e (Some u) (Some dt) None).

(** An EKF run by run_filter on noiseless generated data from the true initial state yields the
    true state at every result, for all schedules whose stamps are equal or more than 1e-11 s
    apart, whatever the covariances, Jacobians and the outlier rejection (off or on) *)
Theorem C55_ekf infos freq v0 start stop rnd xs us ms P0 out after :
  rounding rnd -> (forall v, plus v 0 = v) ->
  (forall x u, sval (pm_eval pm (stamped x) u 0) = x.1) ->
  (forall x u a b, 0 <= a -> 0 <= b ->
     sval (pm_eval pm (stamped (sval (pm_eval pm (stamped x) u a), x.2 + a)) u b) = sval (pm_eval pm (stamped x) u (a + b))) ->
  (forall t x, ustamp (uin t x) = t) -> (forall p, 0 <= chi2_99 p) ->
  proper_schedule infos -> 0 < freq ->
  generate snd restamp ustamp pm_step uin mmeval rnd (fun _ u => u) (fun _ y => y) infos freq v0 start stop = Ok (xs, us, ms) ->
  (forall a b, (a \in map snd xs) || (a \in map (@me_stamp T mdata mmodel) ms) ->
     (b \in map snd xs) || (b \in map (@me_stamp T mdata mmodel) ms) -> a <= b -> a = b \/ em11 T < b - a) ->
  run_filter ustamp (@me_stamp T mdata mmodel) est_stamp ekf_c ekf_p (Some (rnd start))
    (Est (stamped (v0.1, rnd start)) P0) us ms = (Ok out, after) ->
  size out = (size us).-1 /\ forall k d r0, (k < size out)%N ->
    exists s, let x := nth d xs k in
    [/\ sstamp (est_state (nth r0 out k)) = Some s, x.2 <= s <= (nth d xs k.+1).2 &
      sval (est_state (nth r0 out k)) = sval (pm_eval pm (stamped x) (uin x.2 x) (s - x.2))].
Proof.
move=> rP p0 z0 fl uS chi pr q0 G gp R.
have sK : forall (x : V * T) (t : T), snd (restamp x t) = t by [].
have fl' : flow_property snd restamp pm_step.
  move=> x u a b x1 a0 b0; rewrite /evolve /pm_step /= => -[<-] /=.
  by rewrite fl // addrA.
have e0 x u : evolve snd restamp pm_step x u 0 = Ok x.
  by rewrite /evolve /pm_step /= z0 addr0; case: x.
pose tracks (e : est T V n) x := est_state e = stamped x.
have pT : predict_truth snd restamp pm_step tracks ekf_p.
  move=> e x u dt e' x' te dt0; rewrite /ekf_predict te /= ltNge dt0 /= => -[<-].
  by rewrite /evolve /pm_step /= => -[<-].
have cT : correct_truth snd restamp pm_step mmeval tracks ekf_c (fun g => g = 0 \/ em11 T < g).
  move=> e x m u e' xm y te xm0 gap; rewrite /ekf_correct /load_stamp te /= -/(Est _ _).
  have xmE : evolve snd restamp pm_step x u (me_stamp m - x.2) = Ok xm ->
    exists2 e1, ekf_advance (fun u => Some (ustamp u)) pm e (to_measurement m) (Some u) = Ok e1 & est_state e1 = stamped xm.
    rewrite /ekf_advance /= te /= => ev.
    have -> : me_stamp m - x.2 < - e10 T = false.
      apply/negbTE; rewrite -leNgt; apply: le_trans (_ : 0 <= _); rewrite ?subr_ge0 //.
      by rewrite oppr_le0 exprn_ge0 // ler0n.
    case: gap ev => [->|g].
      rewrite e0 => -[<-]; exists e; rewrite // ifF //.
      by apply/negbTE; rewrite -leNgt invr_ge0 exprn_ge0 // ler0n.
    rewrite g /ekf_predict te /= ltNge subr_ge0 xm0 /= /evolve /pm_step /= => -[<-].
    by eexists; first by [].
  move=> C ev; have [e1 A t1] := xmE ev; move: C; rewrite A /= t1 /mmeval.
  case EV: (mm_eval (me_model m) (stamped xm)) => [yc|] //= C [<-] mv; move: C.
  rewrite mv conform_mx_id subrr.
  have oE : forall p (S : 'M[T]_p), check_outlier chi2_99 (0 : 'cV[T]_p) S = Ok false \/ check_outlier chi2_99 (0 : 'cV[T]_p) S = Raise LinAlgError.
    move=> p S; rewrite /check_outlier /np_solve; case: ifP => _ /=; last by right.
    by left; rewrite trmx0 mul0mx mxE ltNge chi.
  set oc := (if reject then _ else _).
  have [->|->] : oc = Ok false \/ oc = Raise LinAlgError by rewrite /oc; case: (reject); [exact: oE|left].
    rewrite /=; case: (kalman_gain _ _ _) => //= K [<-].
    by rewrite /tracks /= /pplus mulmx0 p0; case: (xm).
  by [].
have tS : tracks_stamp snd est_stamp tracks by move=> e x te; rewrite /est_stamp te.
have gp' a b : (a \in map snd xs) || (a \in map (@me_stamp T mdata mmodel) ms) ->
     (b \in map snd xs) || (b \in map (@me_stamp T mdata mmodel) ms) -> a <= b -> b - a = 0 \/ em11 T < b - a.
  by move=> ha hb ab; case: (gp a b ha hb ab) => [->|]; [left; rewrite subrr|right].
have te : tracks (Est (stamped (v0.1, rnd start)) P0) (restamp v0 (rnd start)) by [].
have [s1 s2] := C55_any_filter (restamp := restamp) sK rP fl' e0 uS tS pT cT pr q0 G gp' te R.
split=> // k d r0 kl; have [xr [t1 b1 v1]] := s2 k d r0 kl.
exists xr.2; split=> //; first by rewrite t1.
by rewrite t1 /=; move: v1; rewrite /evolve /pm_step /= => -[/(congr1 fst)].
Qed.
End EkfTruth.

(** *** When the stamps are far enough apart: schedules on a grid *)
Section Grid.
Variable T : archiFieldType.
(** a is a multiple of h *)
Definition on_grid (h a : T) : Prop := exists z : int, a = z%:~R * h.
Lemma on_gridD h a b : on_grid h a -> on_grid h b -> on_grid h (a + b).
Proof. by move=> [z ->] [w ->]; exists (z + w); rewrite intrD mulrDl. Qed.
Lemma on_gridMn h a k : on_grid h a -> on_grid h (k%:R * a).
Proof. by move=> [z ->]; exists (k%:Z * z); rewrite intrM mulrA. Qed.
Lemma grid_gap h a b : 0 < h -> on_grid h a -> on_grid h b -> a <= b -> a = b \/ h <= b - a.
Proof.
move=> h0 [z ->] [w ->]; rewrite ler_pmul2r // ler_int => zw.
case: (ltgtP z w) zw => // [zw|->] _; [right|by left].
by rewrite -mulrBl -[X in X <= _]mul1r ler_pmul2r // -[1]/(1%:~R) -rmorphB /= ler_int -gtz0_ge1 subr_gt0.
Qed.
Lemma mem_map_In A (K : eqType) (g : A -> K) s c : c \in map g s -> exists2 a, List.In a s & c = g a.
Proof.
elim: s => //= a s IH; rewrite inE => /orP [/eqP ->|/IH [b h1 h2]]; first by exists a; [left|].
by exists b; [right|].
Qed.
Lemma arange_grid h a b s t : on_grid h a -> on_grid h s -> List.In t (arange a b s) -> on_grid h t.
Proof.
by move=> ga gs /List.in_map_iff [i [<- _]]; apply: on_gridD => //; apply: on_gridMn.
Qed.
(** start, periods and offsets multiples of h, and multiples of h are not changed by rounding:
    then any two stamps of the generated data are equal or at least h apart *)
Theorem C55_grid h X U Y M (xstamp : X -> T) restamp (ustamp : U -> T) f uin (meval : M -> X -> option Y) rnd nu ny
  infos freq x0 start stop xs us ms : 0 < h ->
  (forall x t, xstamp (restamp x t) = t) -> rounding rnd -> flow_property xstamp restamp f ->
  (forall a, on_grid h a -> rnd a = a) -> on_grid h start -> on_grid h freq^-1 ->
  (forall e, List.In e infos -> on_grid h e.1.2^-1 /\ on_grid h e.2) ->
  proper_schedule infos -> 0 < freq ->
  generate xstamp restamp ustamp f uin meval rnd nu ny infos freq x0 start stop = Ok (xs, us, ms) ->
  forall a b, (a \in map xstamp xs) || (a \in map (@me_stamp T Y M) ms) ->
    (b \in map xstamp xs) || (b \in map (@me_stamp T Y M) ms) -> a <= b -> a = b \/ h <= b - a.
Proof.
move=> h0 sK rP fl rg gs gf gi pr q0 G a b ha hb.
suff gr c : (c \in map xstamp xs) || (c \in map (@me_stamp T Y M) ms) -> on_grid h c.
  exact: grid_gap (gr _ ha) (gr _ hb).
case/orP => hc.
  have [e _ _] := C53_states sK rP fl pr q0 G; move: hc; rewrite e => /mapP [t ht ->].
  have gt : on_grid h t by case/mapP: ht => i _ ->; apply: on_gridD => //; apply: on_gridMn.
  by rewrite rg.
have [so sel] := C54_schedule sK rP 0 fl pr q0 G.
have [m hm cE] := mem_map_In hc.
have : List.In (c, me_model m) [seq p <- [seq (me_stamp m0, me_model m0) | m0 <- ms] | p.1 == c].
  by apply/In_filter; rewrite /= eqxx cE; split=> //; apply: (In_map_seq (fun m0 : meas T Y M => (me_stamp m0, me_model m0))).
rewrite sel => /In_filter [hin _].
have [s /List.in_map_iff [e [<- he]] /List.in_map_iff [t [[<- _] ht]]] := in_flatten hin.
have [g1 g2] := gi e he.
suff gt : on_grid h t by rewrite rg.
by apply: arange_grid ht => //; apply: on_gridD => //; rewrite rg.
Qed.
End Grid.

(** *** Witness: a single integrator with a direct position measurement *)
Section Witness.
Variable T : archiFieldType.
Definition w_pm : process_model T 'cV[T]_1 1 ('cV[T]_1 * T) :=
  ProcessModel (fun x u dt => PState (sval x + dt *: u.1) (sstamp x)) (fun _ _ _ => 1%:M) (fun _ _ _ => 1%:M).
Definition w_model : mmodel T 'cV[T]_1 1 :=
  MModel (mm_dim := 1) (fun x => Some (sval x)) (fun _ => 1%:M) (fun _ => 1%:M).
Example C55_witness rnd v0 start stop : rounding rnd -> start < stop ->
  [/\ (forall v : 'cV[T]_1, v + 0 = v),
      (forall x u, sval (pm_eval w_pm (stamped x) u 0) = x.1),
      (forall x u a b, 0 <= a -> 0 <= b ->
         sval (pm_eval w_pm (stamped (sval (pm_eval w_pm (stamped x) u a), x.2 + a)) u b) = sval (pm_eval w_pm (stamped x) u (a + b))),
      proper_schedule [:: (w_model, 5%:R : T, 0); (w_model, 2%:R, 1)] &
      is_ok (generate snd (fun x t => (x.1, t)) snd (pm_step w_pm) (fun t x => (const_mx t, t)) (@mmeval T 'cV[T]_1 1) rnd
        (fun _ u => u) (fun _ y => y) [:: (w_model, 5%:R : T, 0); (w_model, 2%:R, 1)] 10%:R v0 start stop)].
Proof.
move=> rP ss.
have pr : proper_schedule [:: (w_model, 5%:R : T, 0); (w_model, 2%:R, 1)].
  by move=> e [<-|[<-|[]]] /=; rewrite ltr0n ?ler01.
split=> //.
- exact: addr0.
- by move=> x u /=; rewrite scale0r addr0.
- by move=> x u a b _ _ /=; rewrite scalerDl addrA.
- apply: C54_total => //; first by rewrite ltr0n.
  by move=> e x [<-|[<-|[]]].
Qed.
Example C55_grid_witness : let h := 10%:R^-1 : T in
  [/\ em11 T < h, on_grid h 0, on_grid h 10%:R^-1 &
   forall e, List.In e [:: (w_model, 5%:R : T, 0); (w_model, 2%:R, 1)] -> on_grid h e.1.2^-1 /\ on_grid h e.2].
Proof.
move=> h.
have p10 : (0 : T) < 10%:R by rewrite ltr0n.
have n10 : (10%:R : T) != 0 by rewrite gt_eqF.
split.
- by rewrite /em11 /h ltf_pinv ?posrE ?exprn_gt0 // exprS ltr_pmulr // exprn_egt1 // ltr1n.
- by exists 0; rewrite mul0r.
- by exists 1; rewrite mul1r.
- have g k m : (k * m = 10)%N -> on_grid h (k%:R^-1).
    move=> km; exists m%:Z; rewrite /h -km natrM invfM mulrCA mulfV ?mulr1 //.
    by rewrite -pmulrn pnatr_eq0; case: m km => //; rewrite muln0.
  move=> e [<-|[<-|[]]] /=; split; [exact: (g 5%N 2%N)|by exists 0; rewrite mul0r|exact: (g 2%N 5%N)|].
  by exists 10; rewrite /h mulfV.
Qed.
End Witness.

Print Assumptions C55_any_filter.
Print Assumptions C55_ekf.
Print Assumptions C55_grid.
