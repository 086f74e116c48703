(** C86: generated measurements: noise-free values, and the mean and covariance of the noise. *)
From mathcomp Require Import all_ssreflect all_algebra.
From Verif Require Import Base Tac LinAlg EkfModel CholModel CholProof CompositeProof SampleModel.
Set Implicit Arguments.
Unset Strict Implicit.
Unset Printing Implicit Defensive.
Import Order.Theory GRing.Theory Num.Theory.
Local Open Scope ring_scope.

Section C86.
Variable R : rcfType.
(** *** Specification: a finite probability space, W outcomes with weights p *)
Variables (W : nat) (p : 'I_W -> R).
Hypothesis p_sum : \sum_w p w = 1.
(** mean of a random vector, and its covariance about a given vector *)
Definition mean n (v : 'I_W -> 'cV[R]_n) : 'cV[R]_n := \sum_w p w *: v w.
Definition cov_about n (c : 'cV[R]_n) (v : 'I_W -> 'cV[R]_n) : 'M[R]_n := \sum_w p w *: ((v w - c) *m (v w - c)^T).
(** what is asked of np.random.normal(0, 1, n): zero mean and identity covariance *)
Definition standard n (z : 'I_W -> 'cV[R]_n) : Prop := mean z = 0 /\ cov_about 0 z = 1%:M.

Lemma mean_lin n m (A : 'M[R]_(m, n)) v : mean (fun w => A *m v w) = A *m mean v.
Proof. by rewrite /mean mulmx_sumr; apply: eq_bigr => w _; rewrite scalemxAr. Qed.
(** C86: randvec returns vectors with mean zero and exactly the covariance asked for *)
Theorem C86_randvec_moments n (S : 'M[R]_n) (z : 'I_W -> 'cV[R]_n) : pd S -> standard z ->
  exists v, (forall w, randvec S (z w) = Ok (v w)) /\ mean v = 0 /\ cov_about 0 v = S.
Proof.
move=> pS [z0 z1]; have sS := pS.1; have [L eL] := (cholesky_pd sS).1 pS; have [h1 _ _] := cholesky_ok sS eL.
exists (fun w => L *m z w); split=> [w|]; first by rewrite /randvec eL.
split; first by rewrite mean_lin z0 mulmx0.
have -> : S = L *m cov_about 0 z *m L^T by rewrite z1 mulmx1.
rewrite /cov_about mulmx_sumr mulmx_suml; apply: eq_bigr => w _.
by rewrite !subr0 -scalemxAr -scalemxAl trmx_mul !mulmxA.
Qed.
(** C86: a symmetric matrix that is not positive definite is refused, in particular every singular covariance, such as zero *)
Theorem C86_randvec_singular_refuted n k (S : 'M[R]_n) (z : 'M[R]_(n, k)) : symmx S -> ~ pd S -> exists e, randvec S z = Raise e.
Proof.
move=> sS npd; rewrite /randvec; case E: (cholesky S) => [L|e]; last by exists e.
by case: npd; apply/(cholesky_pd sS); exists L.
Qed.
(** num_samples columns are treated independently *)
Theorem C86_randvec_columns n k (S : 'M[R]_n) (z : 'M[R]_(n, k)) j : rmap (col j) (randvec S z) = randvec S (col j z).
Proof. by rewrite /randvec; case: (cholesky S) => [L|//] /=; rewrite colE -mulmxA -colE. Qed.

Variables (X T Id : Type) (stamp : X -> T).
Notation gen := (generate_measurement stamp).
(** the entries of a column vector, in order *)
Lemma col_seq_size n (v : 'cV[R]_n) : size (col_seq v) = n. Proof. by rewrite size_map size_enum_ord. Qed.
Lemma col_seq_nth n (v : 'cV[R]_n) (i : 'I_n) : nth 0 (col_seq v) i = v i 0.
Proof. by rewrite (nth_map i) ?size_enum_ord // nth_ord_enum. Qed.

(** C86: a list of states gives one measurement per state, in order, and a single state a single measurement: the first of the list *)
Theorem C86_list (xs : seq X) (m : mmodel R X) noise (sid : Id) zs l : gen (Many xs) m noise sid zs = Ok l ->
  exists ms, [/\ l = Many ms, size ms = size xs &
    forall k dx dm, (k < size xs)%N -> gen (One (nth dx xs k)) m noise sid (fun _ => zs k) = Ok (One (nth dm ms k)) /\
       [/\ ms_stamp (nth dm ms k) = stamp (nth dx xs k), ms_id (nth dm ms k) = sid & ms_model (nth dm ms k) = m]].
Proof.
rewrite /=; case E: (generate_list _ _ _ _ _ _ _) => [ms|//] [<-]; exists ms.
have H : forall xs ms k0, generate_list stamp m noise sid xs zs k0 = Ok ms -> size ms = size xs /\
   forall k dx dm, (k < size xs)%N -> generate_one stamp m noise sid (nth dx xs k) (zs (k0 + k)%N) = Ok (nth dm ms k).
  elim=> [|x r IH] ms' k0 /=; first by case=> <-.
  case e1: (generate_one _ _ _ _ _ _) => [a|//] /=; case e2: (generate_list _ _ _ _ _ _ _) => [b|//] [<-].
  have [s1 s2] := IH _ _ e2; split; first by rewrite /= s1.
  by case=> [|k] dx dm hk /=; [rewrite addn0|rewrite addnS -addSn; apply: s2].
have [s1 s2] := H _ _ _ E; split=> // k dx dm hk; have := s2 k dx dm hk; rewrite add0n => e; rewrite e /=; split=> //.
move: e; rewrite /generate_one; case: (mm_cov _ _) => [S|//] /=; case: (mm_eval _ _) => [[y|//]|//] /=.
by case: (if noise then _ else _) => [v|//] [<-].
Qed.
(** C86: without noise the value is what the model evaluates to *)
Theorem C86_noise_free (x : X) (m : mmodel R X) (sid : Id) zs S y : mm_cov m x = Ok S -> mm_eval m x = Ok (Some y) ->
  gen (One x) m false sid zs = Ok (One (Meas y (stamp x) m sid)).
Proof. by move=> h1 h2; rewrite /= /generate_one h1 /= h2. Qed.
(** C86: with noise, for a model whose covariance matches the size of its measurement and is positive definite, the measurement has mean
    evaluate(x) and covariance covariance(x), over any distribution of draws with zero mean and identity covariance *)
Theorem C86_noisy (x : X) (m : mmodel R X) (sid : Id) n (S : 'M[R]_n) (y : 'cV[R]_n) (z : 'I_W -> nat -> forall n, 'cV[R]_n) :
  mm_cov m x = Ok (existT _ n S) -> mm_eval m x = Ok (Some (col_seq y)) -> pd S -> standard (fun w => z w 0%N n) ->
  exists v : 'I_W -> 'cV[R]_n, (forall w, gen (One x) m true sid (z w) = Ok (One (Meas (col_seq (v w)) (stamp x) m sid))) /\
    mean v = y /\ cov_about y v = S.
Proof.
move=> hc he pS hz; have [v [h1 [h2 h3]]] := C86_randvec_moments pS hz.
exists (fun w => y + v w); split=> [w|].
  rewrite /= /generate_one hc /= he /= h1 /= /add_noise !col_seq_size eqxx /=; congr (Ok (One (Meas _ _ _ _))).
  rewrite /col_seq zip_map -map_comp; apply: eq_map => i /=; by rewrite mxE.
split.
  rewrite /mean; under eq_bigr do rewrite scalerDr; by rewrite big_split /= -scaler_suml p_sum scale1r -/(mean v) h2 addr0.
by rewrite -[RHS]h3 /cov_about; apply: eq_bigr => w _; rewrite [y + v w]addrC addrK subr0.
Qed.
Lemma block00 (a : 'M[R]_1) (b : 'M[R]_(1, 0)) (c : 'M[R]_(0, 1)) (d : 'M[R]_0) : (block_mx a b c d : 'M[R]_(1 + 0)) 0 0 = a 0 0.
Proof. rewrite -[RHS](block_mxEul a b c d 0 0); by congr (block_mx _ _ _ _ _ _); apply: val_inj. Qed.
(** C86, a promise not kept: a model with a scalar covariance and several measured numbers gets one noise sample, added to all of them *)
Theorem C86_scalar_covariance_refuted (x : X) (m : mmodel R X) (sid : Id) (s : R) (y : seq R) zs : mm_cov m x = Ok (existT _ 1%N s%:M) ->
  mm_eval m x = Ok (Some y) -> 0 < s -> size y <> 1%N ->
  exists e, gen (One x) m true sid zs = Ok (One (Meas [seq a + e | a <- y] (stamp x) m sid)).
Proof.
move=> hc he s0 sy; exists (Num.sqrt s * zs 0%N 1%N 0 0).
rewrite /= /generate_one hc /= he /= /randvec /=.
have -> : ulsubmx (s%:M : 'M[R]_(1 + 0)) 0 0 = s by rewrite !mxE eqxx.
rewrite s0 /= /add_noise col_seq_size eq_sym; case: eqP => // _ /=; congr (Ok (One (Meas _ _ _ _))).
apply: eq_map => a; congr (_ + _); rewrite (col_seq_nth _ (0 : 'I_1)) mxE big_ord1.
congr (_ * _); apply: (etrans (block00 _ _ _ _)); by rewrite mxE eqxx.
Qed.
(** C86: a model that declines to measure makes the whole call raise AttributeError *)
Theorem C86_unavailable_refuted (x : X) (m : mmodel R X) noise (sid : Id) zs S : mm_cov m x = Ok S -> mm_eval m x = Ok None ->
  gen (One x) m noise sid zs = Raise AttributeError /\
  forall a b, ~ is_ok (gen (Many (a ++ x :: b)) m noise sid zs).
Proof.
move=> h1 h2; split; first by rewrite /= /generate_one h1 /= h2.
move=> a b /=; move: 0%N => k; elim: a k => [|c a IH] k /=; first by rewrite /generate_one h1 /= h2.
case: (generate_one _ _ _ _ _ _) => [u|//] /=; have := IH k.+1; by case: (generate_list _ _ _ _ _ _ _).
Qed.
End C86.

(** concrete: the two-point distribution z = +1, -1 with weights 1/2 is standard *)
Section Witness.
Variable R : rcfType.
Example C86_ex_standard : let p := fun _ : 'I_2 => (2%:R^-1 : R) in let z := fun w : 'I_2 => (if w == 0 then 1 else -1)%:M : 'cV[R]_1 in
  \sum_w p w = 1 /\ standard p z.
Proof.
have n2 : 2%:R != 0 :> R by rewrite pnatr_eq0.
have h : 2%:R^-1 + 2%:R^-1 = 1 :> R by rewrite -mulr2n -[_ *+ 2]mulr_natl mulfV.
move=> p z; split; first by rewrite !big_ord_recl big_ord0 addr0.
split; rewrite /mean /cov_about !big_ord_recl big_ord0 addr0 /p /z /=.
  by rewrite -scalerDr -raddfD /= subrr raddf0 scaler0.
by rewrite !subr0 !tr_scalar_mx -!scalar_mxM mulrNN mulr1 -scalerDl h scale1r.
Qed.
Example C86_ex_pd : pd (4%:R%:M : 'M[R]_1) /\ ~ pd (0 : 'M[R]_1).
Proof.
split.
- split; first by rewrite /symmx tr_scalar_mx.
  move=> v v0; rewrite /qf mul_mx_scalar -scalemxAl mxE; apply: mulr_gt0; first by rewrite ltr0n.
  rewrite mxE big_ord1 mxE -expr2 lt_def sqr_ge0 andbT sqrf_eq0; apply: contra v0 => /eqP e; apply/eqP/colP => i; by rewrite ord1 e mxE.
- by case=> _ /(_ 1 (oner_neq0 _)); rewrite /qf mulmx0 mul0mx mxE ltxx.
Qed.
End Witness.
Print Assumptions C86_noisy.
Print Assumptions C86_list.
Print Assumptions C86_scalar_covariance_refuted.
