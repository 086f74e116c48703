(** Model of Gaussian mixing (navlie/utils/mixture.py) and of the mixture filters
    InteractingModelFilter and GaussianSumFilter (navlie/filters.py:823-1106).
    Exact arithmetic over an ordered field. *)
From mathcomp Require Import all_ssreflect all_algebra.
From Verif Require Import Base EkfModel.
Set Implicit Arguments.
Unset Strict Implicit.
Unset Printing Implicit Defensive.
Import Order.Theory GRing.Theory Num.Theory.
Local Open Scope ring_scope.

Section Mixing.
Variable R : realFieldType.

(** np.argmax of a 1-D array: index of the first maximum; ValueError if empty. *)
Fixpoint argmax_from (best : R) (besti i : nat) (s : seq R) : nat :=
  if s is a :: r then
    if best < a then argmax_from a i i.+1 r else argmax_from best besti i.+1 r
  else besti.
Definition argmax (s : seq R) : result nat :=
  if s is a :: r then Ok (argmax_from a 0 1 r) else Raise ValueError.

Section Vec.
Variable n : nat.
(** mixture.py:14-47 gaussian_mixing_vectorspace; means[0] / covariances[0] on
    empty lists raise IndexError; zip stops at the shortest list. *)
Definition gaussian_mixing_vectorspace (weights : seq R) (means : seq 'cV[R]_n) (covs : seq 'M[R]_n)
  : result ('cV[R]_n * 'M[R]_n) :=
  match means, covs with
  | _ :: _, _ :: _ =>
      let x_bar := foldl (fun acc wx => acc + wx.1 *: wx.2) 0 (zip weights means) in
      let P_bar := foldl (fun acc wxP =>
                     let dx := wxP.1.2 - x_bar in
                     acc + wxP.1.1 *: wxP.2 + wxP.1.1 *: (dx *m dx^T)) 0
                     (zip (zip weights means) covs) in
      Ok (x_bar, P_bar)
  | _, _ => Raise IndexError
  end.
End Vec.

Variables (V : Type) (n : nat).
Variable plus : V -> 'cV[R]_n -> V.
Variable minus : V -> V -> 'cV[R]_n.
Variable plus_jac : V -> 'cV[R]_n -> 'M[R]_n.     (* x.plus_jacobian(dx) *)
Variable minus_jac : V -> V -> 'M[R]_n.          (* y.minus_jacobian(x) *)
Notation est := (est R V n).

(** mixture.py:50-85 reparametrize_gaussians_about_X_par *)
Definition reparametrize (X_par : V) (X_list : seq est) : seq 'cV[R]_n * seq 'M[R]_n :=
  ([seq minus (sval (est_state X)) X_par | X <- X_list],
   [seq (let Jinv := minus_jac (sval (est_state X)) X_par in Jinv *m est_cov X *m Jinv^T) | X <- X_list]).

(** mixture.py:88-115 update_X *)
Definition update_X (X : pstate R V) (mu : 'cV[R]_n) (P : 'M[R]_n) : est :=
  let J := plus_jac (sval X) mu in Est (pplus plus X mu) (J *m P *m J^T).

(** mixture.py:118-138 gaussian_mixing *)
Definition gaussian_mixing (weights : seq R) (x_list : seq est) : result est :=
  i <~ argmax weights ;;
  Xp <~ py_nth x_list i ;;
  let r := reparametrize (sval (est_state Xp)) x_list in
  xP <~ gaussian_mixing_vectorspace weights r.1 r.2 ;;
  Ok (update_X (est_state Xp) xP.1 xP.2).

(** ** Mixture filters with N modes.  MixtureState: model states and
    probabilities (lib/states.py:656-676).  The lists kf_list, model_states and
    model_probabilities and the transition matrix all have N entries. *)
Section Filters.
Variable N : nat.
Variable U : Type.
Variable ustamp : U -> option R.
Variable chi2_99 : nat -> R.

Record mixture := Mixture { mx_states : 'I_N -> est; mx_probs : 'I_N -> R }.

(** filters.py:879 c = Pi^T mu ; the same sums filters.py:951-956 as c_bar *)
Definition predicted_probs (Pi : 'M[R]_N) (mu : 'I_N -> R) (j : 'I_N) : R :=
  \sum_(i < N) Pi i j * mu i.

(** filters.py:881-886.  Division by a zero c[j] gives NaN in numpy; here x/0 = 0,
    so the statements exclude it. *)
Definition mu_mix (Pi : 'M[R]_N) (mu : 'I_N -> R) (i j : 'I_N) : R :=
  1 / predicted_probs Pi mu j * Pi i j * mu i.

(** filters.py:860-893 interaction: the probabilities are returned unchanged. *)
Definition imm_interaction (Pi : 'M[R]_N) (x : mixture) : result mixture :=
  xs <~ mapM (fun j => gaussian_mixing [seq mu_mix Pi (mx_probs x) i j | i <- enum 'I_N]
                                       [seq mx_states x i | i <- enum 'I_N]) (enum 'I_N) ;;
  Ok (Mixture (fun j => nth (mx_states x j) xs j) (mx_probs x)).

(** ExtendedKalmanFilter.correct(..., output_details=True), filters.py:229-260:
    second component: the (z, S) of details_dict, absent when the model returned
    None. *)
Definition ekf_correct_details (pm : process_model R V n U) (x : est) (y : measurement R V n)
  (u : option U) (reject : bool) : result (est * option ('cV[R]_(m_dim y) * 'M[R]_(m_dim y))) :=
  x <~ ekf_advance ustamp pm (load_stamp x (m_stamp y)) y u ;;
  match m_eval y (est_state x) with
  | None => Ok (x, None)
  | Some y_check =>
      let P := est_cov x in
      let Rm := m_cov y (est_state x) in
      let G := m_jac y (est_state x) in
      let z := m_val y - y_check in
      let S := G *m P *m G^T + Rm in
      outlier <~ (if reject then check_outlier chi2_99 z S else Ok false) ;;
      if outlier then Ok (x, Some (z, S)) else
      K <~ kalman_gain S P G ;;
      Ok (Est (pplus plus (est_state x) (K *m z)) (symmetrize ((1%:M - K *m G) *m P)), Some (z, S))
  end.

Definition em8 : R := 10%:R ^- 8.
Definition em10 : R := 10%:R ^- 10.

(** filters.py:973-978 and 1099-1104.  np.allclose(w, 0): every |w_i| <= 1e-8
    (default atol; rtol is multiplied by 0). *)
Definition normalize_weights (w : 'I_N -> R) (i : 'I_N) : R :=
  let w' := if [forall i, `|w i| <= em8] then (fun=> em10) else w in
  w' i / \sum_(j < N) w' j.

(** multivariate_normal.pdf(z, mean=zeros, cov=S) *)
Variable gauss_pdf : forall m, 'cV[R]_m -> 'M[R]_m -> R.

(** One mode of the loops filters.py:954-968 and 1084-1095: corrected estimate and
    likelihood; details_dict["z"] raises KeyError when the measurement was
    unavailable.  [pdf] is the likelihood evaluation, which may raise. *)
Definition correct_mode (pdf : forall m, 'cV[R]_m -> 'M[R]_m -> result R)
  (pm : process_model R V n U) (reject : bool) (x : est)
  (y : measurement R V n) (u : option U) : result (est * R) :=
  xd <~ ekf_correct_details pm x y u reject ;;
  match xd.2 with
  | None => Raise KeyError
  | Some zS => l <~ pdf _ zS.1 zS.2 ;; Ok (xd.1, l)
  end.

(** InteractingModelFilter.correct, filters.py:914-980: mean = np.zeros(z.ravel().shape). *)
Definition imm_correct (pms : 'I_N -> process_model R V n U) (reject : 'I_N -> bool) (Pi : 'M[R]_N)
  (x : mixture) (y : measurement R V n) (u : option U) : result mixture :=
  rs <~ mapM (fun i => correct_mode (fun m z S => Ok (gauss_pdf z S)) (pms i) (reject i) (mx_states x i) y u) (enum 'I_N) ;;
  let r i := nth (mx_states x i, 0) rs i in
  Ok (Mixture (fun i => (r i).1)
        (normalize_weights (fun i => (r i).2 * predicted_probs Pi (mx_probs x) i))).

(** GaussianSumFilter.correct, filters.py:1055-1106: mean = np.zeros(z.shape) with
    z of shape (m, 1): scipy requires a 1-D mean unless its size is 1, else
    ValueError "Array 'mean' must be a vector of length m". *)
Definition gsf_pdf m (z : 'cV[R]_m) (S : 'M[R]_m) : result R :=
  if m == 1%N then Ok (gauss_pdf z S) else Raise ValueError.
Definition gsf_correct (pm : process_model R V n U) (reject : bool)
  (x : mixture) (y : measurement R V n) (u : option U) : result mixture :=
  rs <~ mapM (fun i => correct_mode gsf_pdf pm reject (mx_states x i) y u) (enum 'I_N) ;;
  let r i := nth (mx_states x i, 0) rs i in
  Ok (Mixture (fun i => (r i).1) (normalize_weights (fun i => mx_probs x i * (r i).2))).

(** InteractingModelFilter.predict filters.py:892-912; GaussianSumFilter.predict
    1020-1053 (same process model in every mode). *)
Definition imm_predict (pms : 'I_N -> process_model R V n U) (x : mixture) (u : option U) (dt : option R)
  : result mixture :=
  xs <~ mapM (fun i => ekf_predict ustamp (pms i) (mx_states x i) u dt None) (enum 'I_N) ;;
  Ok (Mixture (fun j => nth (mx_states x j) xs j) (mx_probs x)).
End Filters.
End Mixing.
