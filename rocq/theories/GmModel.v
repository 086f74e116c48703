(** Model of navlie/batch/gaussian_mixtures.py over the real numbers.
    A NaN (log of a non-positive number, sqrt of a negative number) is modelled as
    [Raise GenericException]; np.linalg.det is given per component. *)
From Coq Require Import Reals.
From mathcomp Require Import ssreflect ssrfun ssrbool eqtype ssrnat seq.
From Verif Require Import Base.
Set Implicit Arguments.
Unset Strict Implicit.
Unset Printing Implicit Defensive.
Local Open Scope R_scope.

Definition rsum (s : seq R) : R := foldr Rplus 0 s.
(** e.T @ e *)
Definition sq (e : seq R) : R := rsum [seq x * x | x <- e].
Definition half_sq (e : seq R) : R := (1/2) * sq e.
Definition np_log (x : R) : result R := if Rlt_dec 0 x then Ok (ln x) else Raise GenericException.
Definition np_sqrt (x : R) : result R := if Rle_dec 0 x then Ok (sqrt x) else Raise GenericException.

(** np.argmin: first minimum; ValueError on an empty array *)
Fixpoint argmin_from (best : R) (bi i : nat) (s : seq R) : nat :=
  if s is x :: r then if Rlt_dec x best then argmin_from x i i.+1 r else argmin_from best bi i.+1 r else bi.
Definition argmin (s : seq R) : result nat :=
  if s is x :: r then Ok (argmin_from x 0 1 r) else Raise ValueError.
(** Python max *)
Definition pymax (s : seq R) : result R :=
  if s is x :: r then Ok (foldl Rmax x r) else Raise ValueError.

(** An error array: its entries and whether its shape is (n, 1) (the shape the
    residuals of residuals.py return) or (n,). *)
Record earr := Earr { e_val : seq R; e_col : bool }.
(** A Jacobian: number of columns and rows *)
Record jac := Jac { j_cols : nat; j_rows : seq (seq R) }.
Definition vstack (a b : jac) : jac := Jac (j_cols a) (j_rows a ++ j_rows b).
Definition jscale (c : R) (a : jac) : jac := Jac (j_cols a) [seq [seq c * x | x <- r] | r <- j_rows a].
(** entry c of J^T e *)
Definition jte (J : jac) (e : seq R) (c : nat) : R := rsum [seq nth 0 rx.1 c * rx.2 | rx <- zip (j_rows J) e].

(** gaussian_mixtures.py:58 *)
Definition norm_weights (ws : seq R) : seq R := [seq w / rsum ws | w <- ws].
(** gaussian_mixtures.py:197-200 (and 286-289, 423-426, 552-555) *)
Definition alphas_of (ws dets : seq R) : seq R := [seq wd.1 * wd.2 | wd <- zip ws dets].

(** gaussian_mixtures.py:205-210 *)
Definition res_values (alphas : seq R) (es : seq earr) : result (seq R) :=
  mapM (fun ae => la <~ np_log ae.1 ;; Ok (- la + (1/2) * sq (e_val ae.2))) (zip alphas es).

Definition e0 : earr := Earr [::] true.

(** gaussian_mixtures.py:192-223 MaxMixtureResidual.mix_errors; also returns the
    dominant index used by mix_jacobians. *)
Definition max_mixture_errors (alphas : seq R) (es : seq earr) : result (seq R * nat) :=
  rv <~ res_values alphas es ;;
  k <~ argmin rv ;;
  amax <~ pymax alphas ;;
  l <~ np_log (amax / nth 0 alphas k) ;;
  s <~ np_sqrt l ;;
  Ok (e_val (nth e0 es k) ++ [:: sqrt 2 * s], k).

(** gaussian_mixtures.py:225-257, for one state: component Jacobians in, mixture Jacobian out *)
Definition max_mixture_jac (k : nat) (js : seq (option jac)) : option jac :=
  if nth None js k is Some j then Some (vstack j (Jac (j_cols j) [:: nseq (j_cols j) 0])) else None.

(** gaussian_mixtures.py:415-458 SumMixtureResidual.mix_errors *)
Definition sum_mixture_error (alphas : seq R) (es : seq earr) : result R :=
  let norm_const := rsum alphas in
  rv <~ res_values alphas es ;;
  k <~ argmin rv ;;
  let se := [seq (1/2) * sq (e_val ae.2) | ae <- zip alphas es] in
  l <~ np_log (rsum [seq ae.1 * exp (- ae.2 + nth 0 se k) | ae <- zip alphas se]) ;;
  s <~ np_sqrt (norm_const + nth 0 se k - l) ;;
  Ok (sqrt 2 * s).

(** min of a Python list of 1x1 arrays *)
Definition pymin (s : seq R) : result R :=
  if s is x :: r then Ok (foldl Rmin x r) else Raise ValueError.

Definition all_some T (s : seq (option T)) : option (seq T) :=
  foldr (fun o acc => if o is Some x then if acc is Some r then Some (x :: r) else None else None) (Some [::]) s.

(** row vector [f 0; ..; f (n-1)] *)
Definition row (n : nat) (f : nat -> R) : seq R := [seq f c | c <- iota 0 n].

(** gaussian_mixtures.py:460-526, one state.  A None among the other components
    when the first is not None is a TypeError. *)
Definition sum_mixture_jac (alphas : seq R) (es : seq earr) (e_sm : R) (js : seq (option jac)) : result (option jac) :=
  let eTe := [seq sq (e_val e) | e <- es] in
  dom <~ pymin eTe ;;
  let exps := [seq exp (- (1/2) * x + (1/2) * dom) | x <- eTe] in
  let sum_exp := rsum [seq ae.1 * ae.2 | ae <- zip alphas exps] in
  let drho := [seq ae.1 * ae.2 / sum_exp | ae <- zip alphas exps] in
  if nth None js 0 is Some j0 then
    if all_some js is Some Js then
      let num c := rsum [seq de.1 * de.2 | de <- zip drho [seq jte jx.2 (e_val jx.1) c | jx <- zip es Js]] in
      Ok (Some (Jac (j_cols j0) [:: row (j_cols j0) (fun c => num c / e_sm)]))
    else Raise TypeError
  else Ok None.

(** gaussian_mixtures.py:324-345 compute_nonlinear_part *)
Definition nonlinear_part (damping : R) (diffs alphas : seq R) : result R :=
  amax <~ pymax alphas ;;
  nc <~ np_log (INR (size alphas) * amax + damping) ;;
  st <~ np_log (rsum [seq ae.1 * exp ae.2 | ae <- zip alphas diffs]) ;;
  s <~ np_sqrt (nc - st) ;;
  Ok (sqrt 2 * s).

(** gaussian_mixtures.py:281-322 MaxSumMixtureResidual.mix_errors: np.concatenate
    of a (n, 1) array and a (1,) array is a ValueError.  Returns the error, the
    nonlinear part and the dominant index. *)
Definition max_sum_errors (damping : R) (alphas : seq R) (es : seq earr) : result (seq R * R * nat) :=
  rv <~ res_values alphas es ;;
  k <~ argmin rv ;;
  let ek := nth e0 es k in
  let diffs := [seq - (1/2) * sq (e_val e) + (1/2) * sq (e_val ek) | e <- es] in
  nl <~ nonlinear_part damping diffs alphas ;;
  if e_col ek then Raise ValueError else Ok (e_val ek ++ [:: nl], nl, k).

(** gaussian_mixtures.py:347-412, one state *)
Definition max_sum_jac (alphas : seq R) (es : seq earr) (nl : R) (k : nat) (js : seq (option jac)) : result (option jac) :=
  let ek := nth e0 es k in
  let diffs := [seq - (1/2) * sq (e_val e) + (1/2) * sq (e_val ek) | e <- es] in
  let sum_exp := rsum [seq ae.1 * exp ae.2 | ae <- zip alphas diffs] in
  let drho := [seq ae.1 * exp ae.2 / sum_exp | ae <- zip alphas diffs] in
  if nth None js 0 is Some j0 then
    if all_some js is Some Js then
      let jd := nth j0 Js k in
      let num c := rsum [seq - de.1 * - de.2 | de <- zip drho [seq jte jx.2 (e_val jx.1) c | jx <- zip es Js]]
                   - jte jd (e_val ek) c in
      Ok (Some (vstack jd (Jac (j_cols j0) [:: row (j_cols j0) (fun c => num c / nl)])))
    else Raise TypeError
  else Ok None.

(** gaussian_mixtures.py:543-550 *)
Definition hsm_constant (alphas : seq R) : result R :=
  np_log (rsum [seq a * exp (rsum alphas / a) | a <- alphas]).

Definition rscale (c : R) (e : seq R) : seq R := [seq c * x | x <- e].

(** gaussian_mixtures.py:552-618 (no_use_complex_numbers=True).  squeeze() of a
    single row gives a 0-d array, which np.concatenate refuses (ValueError). *)
Definition hsm_drho (alphas fs : seq R) (k : nat) : seq R :=
  let sum_exp := rsum [seq af.1 * exp (nth 0 fs k - af.2) | af <- zip alphas fs] in
  [seq af.1 * exp (nth 0 fs k - af.2) / sum_exp | af <- zip alphas fs].
Definition hsm_errors (alphas : seq R) (es : seq earr) : result (seq R * seq R) :=
  nc <~ hsm_constant alphas ;;
  let fs := [seq (1/2) * sq (e_val e) | e <- es] in
  k <~ argmin fs ;;
  let fk := nth 0 fs k in
  let sum_exp := rsum [seq af.1 * exp (fk - af.2) | af <- zip alphas fs] in
  let drho := hsm_drho alphas fs k in
  sq_drho <~ mapM np_sqrt drho ;;
  let he := flatten [seq rscale de.1 (e_val de.2) | de <- zip sq_drho es] in
  l <~ np_log sum_exp ;;
  if size he == 1%N then Raise ValueError else
  d <~ np_sqrt (2 * (nc + fk - l) - sq he) ;;
  Ok (he ++ [:: d], drho).

(** gaussian_mixtures.py:620-677, one state, with the reused drho *)
Definition hsm_jac (drho : seq R) (js : seq (option jac)) : result (option jac) :=
  if nth None js 0 is Some j0 then
    if all_some js is Some Js then
      sq_drho <~ mapM np_sqrt drho ;;
      Ok (Some (Jac (j_cols j0)
        (flatten [seq j_rows (jscale dj.1 dj.2) | dj <- zip sq_drho Js] ++ [:: nseq (j_cols j0) 0])))
    else Raise TypeError
  else Ok None.

(** ** Component bookkeeping *)
Section Components.
Variables (K : eqType) (V : Type) (dof : V -> nat).
(** a component residual: keys, error and Jacobians at its own states *)
Record component := Component {
  c_keys : seq K;
  c_err : seq V -> earr;
  c_jac : seq V -> nat -> jac;
  c_det : seq V -> R }.
(** gaussian_mixtures.py:50-57: keys of the mixture, first occurrence order *)
Definition mix_keys (cs : seq component) : seq K :=
  foldl (fun ks k => if k \in ks then ks else rcons ks k) [::] (flatten [seq c_keys c | c <- cs]).
(** gaussian_mixtures.py:104-108: states of one component *)
Definition comp_states (ks : seq K) (states : seq V) (c : component) : result (seq V) :=
  mapM (fun k => if k \in ks then py_nth states (index k ks) else Raise ValueError) (c_keys c).
(** gaussian_mixtures.py:110-141: Jacobians of one component with respect to all
    states of the mixture.  A sub-residual returns a Jacobian exactly for the
    requested states. *)
Definition zero_jac (rows cols : nat) : jac := Jac cols (nseq rows (nseq cols 0)).
Definition comp_jacs (ks : seq K) (states : seq V) (flags : seq bool) (c : component) (vs : seq V) : seq (option jac) :=
  foldl (fun acc jk => set_nth None acc (index jk.2 ks)
            (if nth false flags (index jk.2 ks) then Some (c_jac c vs jk.1) else None))
    [seq (if fs.1 then Some (zero_jac (size (e_val (c_err c vs))) (dof fs.2)) else None) | fs <- zip flags states]
    (zip (iota 0 (size (c_keys c))) (c_keys c)).

(** gaussian_mixtures.py:94-177: [evaluate] of the four kinds of mixture, from the weights handed to
    the constructor.  An empty list of flags is falsy.  (Sum mixture: the error is a scalar, given
    here as a one-element list.)  Lines 149-151 cache intermediate results on the object; nothing in
    this class reads them back: not modelled. *)
Inductive mixture_kind := MaxMixture | MaxSumMixture of R | SumMixture | HessianSumMixture.
Definition mixture_evaluate (kd : mixture_kind) (cs : seq component) (ws : seq R) (states : seq V)
    (flags : option (seq bool)) : result (seq R * option (seq (option jac))) :=
  let ks := mix_keys cs in
  vals <~ mapM (fun c => vs <~ comp_states ks states c ;; Ok (c_err c vs, c_det c vs, vs)) cs ;;
  let es := [seq v.1.1 | v <- vals] in
  let alphas := alphas_of (norm_weights ws) [seq v.1.2 | v <- vals] in
  let wrt fl i := [seq nth None (comp_jacs ks states fl cv.1 cv.2.2) i | cv <- zip cs vals] in
  let jacs (mix : seq (option jac) -> result (option jac)) :=
    match flags with
    | Some (b :: r) => rmap Some (mapM (fun i => mix (wrt (b :: r) i)) (iota 0 (size states)))
    | _ => Ok None
    end in
  match kd with
  | MaxMixture => ek <~ max_mixture_errors alphas es ;;
      js <~ jacs (fun l => Ok (max_mixture_jac ek.2 l)) ;; Ok (ek.1, js)
  | MaxSumMixture damping => enk <~ max_sum_errors damping alphas es ;;
      js <~ jacs (max_sum_jac alphas es enk.1.2 enk.2) ;; Ok (enk.1.1, js)
  | SumMixture => e <~ sum_mixture_error alphas es ;;
      js <~ jacs (sum_mixture_jac alphas es e) ;; Ok ([:: e], js)
  | HessianSumMixture => ed <~ hsm_errors alphas es ;;
      js <~ jacs (hsm_jac ed.2) ;; Ok (ed.1, js)
  end.
End Components.
