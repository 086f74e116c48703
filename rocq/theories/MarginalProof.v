(** Linear algebra behind C90: completing the square, and the marginal of a
    least-squares problem.  No code is modelled here. *)
From mathcomp Require Import all_ssreflect all_algebra.
From Verif Require Import Base LinAlg Tac.
Set Implicit Arguments.
Unset Strict Implicit.
Unset Printing Implicit Defensive.
Import Order.Theory GRing.Theory Num.Theory.
Local Open Scope ring_scope.

Section Marginal.
Variable R : realFieldType.

Lemma qf_inv_ge0 n (P : 'M[R]_n) v : pd P -> 0 <= qf (invmx P) v.
Proof. by move=> hP; have [_] := pd_psd (pd_inv hP). Qed.

Lemma qf_inv_eq0 n (P : 'M[R]_n) v : pd P -> qf (invmx P) v = 0 -> v = 0.
Proof.
move=> hP h; apply/eqP/negPn/negP => v0; have [_ hp] := pd_inv hP.
by have := hp _ v0; rewrite h ltxx.
Qed.

(** Completing the square: prior cost + measurement cost. *)
Lemma complete_square n m (P : 'M[R]_n) (G : 'M[R]_(m, n)) (V : 'M[R]_m) (d : 'cV[R]_n) (z : 'cV[R]_m) :
  pd P -> pd V ->
  let S := G *m P *m G^T + V in let K := P *m G^T *m invmx S in
  qf (invmx P) d + qf (invmx V) (z - G *m d) =
  qf (invmx S) z + qf (invmx ((1%:M - K *m G) *m P)) (d - K *m z).
Proof.
move=> hP hV S K; have sP := pd_sym hP; have sV := pd_sym hV.
have uP := pd_unit hP; have uV := pd_unit hV.
have hS : pd S by apply: pdD_psd => //; apply: psd_congr (pd_psd hP).
have uS := pd_unit hS.
set Pp := (1%:M - K *m G) *m P; pose L := invmx P + G^T *m invmx V *m G.
have e1 : Pp *m L = 1%:M := post_info uS uP uV.
have eK : Pp *m G^T *m invmx V = K := gain_info uS uV.
have uPp : Pp \in unitmx by case/mulmx1_unit: e1.
have -> : invmx Pp = L by rewrite -[L]mul1mx -(mulVmx uPp) -mulmxA e1 mulmx1.
have sL : L^T = L by rewrite /L linearD /= !trmx_mul trmxK !inv_sym // mulmxA.
have LK : L *m K = G^T *m invmx V.
  have e2 : L *m Pp = 1%:M by apply: mulmx1C.
  by rewrite -eK (mulmxA L) (mulmxA L Pp) e2 mul1mx.
have KL : K^T *m L = invmx V *m G by rewrite -[L]sL -trmx_mul LK trmx_mul trmxK inv_sym.
have tail : invmx S + K^T *m G^T *m invmx V = invmx V.
  have -> : K^T = invmx S *m (G *m P) by rewrite /K !trmx_mul trmxK inv_sym ?(pd_sym hS) // sP mulmxA.
  have eSV : S *m invmx V = G *m P *m G^T *m invmx V + 1%:M by rewrite /S mulmxDl mulmxV.
  by rewrite -[RHS](mulKmx uS) eSV mulmxDr mulmx1 addrC !mulmxA.
have trB a (u v : 'cV[R]_a) : (u - v)^T = u^T - v^T by rewrite linearB.
have ex1 : (z - G *m d)^T *m invmx V *m (z - G *m d) =
   z^T *m invmx V *m z - z^T *m (invmx V *m G) *m d - d^T *m (G^T *m invmx V) *m z + d^T *m (G^T *m invmx V *m G) *m d.
  rewrite trB trmx_mul; mxexp; zmod.
have ex2 : (d - K *m z)^T *m L *m (d - K *m z) =
   d^T *m L *m d - d^T *m (L *m K) *m z - z^T *m (K^T *m L) *m d + z^T *m (K^T *m (L *m K)) *m z.
  rewrite trB trmx_mul; mxexp; zmod.
suff E : d^T *m invmx P *m d + (z - G *m d)^T *m invmx V *m (z - G *m d) = z^T *m invmx S *m z + (d - K *m z)^T *m L *m (d - K *m z).
  by move: (congr1 (fun M : 'M_1 => M 0 0) E); rewrite /qf !mxE.
have tz : z^T *m invmx V *m z = z^T *m invmx S *m z + z^T *m (K^T *m (G^T *m invmx V)) *m z.
  by rewrite -{1}tail mulmxDr mulmxDl -(mulmxA K^T).
rewrite ex1 ex2 LK KL tz /L.
mxexp; zmod.
Qed.

Lemma qf_ext n (A B : 'M[R]_n) : A^T = A -> B^T = B -> (forall v, qf A v = qf B v) -> A = B.
Proof.
move=> sA sB h; apply/eqP; rewrite -subr_eq0; apply/eqP; set C := A - B.
have sC : C^T = C by rewrite /C linearB /= sA sB.
have hC v : qf C v = 0 by rewrite qfB h subrr.
have q1 i : C i i = 0.
  have := hC (delta_mx i 0); rewrite /qf trmx_delta -rowE -colE !mxE; by [].
apply/matrixP => i j; rewrite [RHS]mxE.
have := hC (delta_mx i 0 + delta_mx j 0).
have -> : qf C (delta_mx i 0 + delta_mx j 0) = C i i + C i j + (C j i + C j j).
  rewrite /qf; have -> : (delta_mx i 0 + delta_mx j 0 : 'cV[R]_n)^T = delta_mx 0 i + delta_mx 0 j by rewrite [LHS]linearD /= !trmx_delta.
  by rewrite mulmxDl -!rowE mulmxDl !mulmxDr -!colE !mxE addrACA addrA addrACA !addrA.
rewrite !q1 addr0 add0r.
have -> : C j i = C i j by rewrite -{1}sC mxE.
by move/eqP; rewrite -mulr2n mulrn_eq0 /= => /eqP.
Qed.

Definition n2 m (v : 'cV[R]_m) : R := (v^T *m v) 0 0.
Lemma n2E m (v : 'cV[R]_m) : n2 v = \sum_i v i 0 ^+ 2.
Proof. by rewrite -qf1 /qf mulmx1. Qed.
Lemma n2_ge0 m (v : 'cV[R]_m) : 0 <= n2 v.
Proof. by rewrite n2E sumr_ge0 // => i _; rewrite sqr_ge0. Qed.
Lemma n2_eq0 m (v : 'cV[R]_m) : n2 v = 0 -> v = 0.
Proof. by rewrite n2E => /eqP; rewrite sumsq_eq0 => /eqP. Qed.
Lemma n2_orth m k (e : 'cV[R]_m) (H : 'M[R]_(m, k)) d : H^T *m e = 0 -> n2 (e + H *m d) = n2 e + n2 (H *m d).
Proof.
move=> he; set w := H *m d.
have z : w^T *m e = 0 by rewrite /w trmx_mul -mulmxA he mulmx0.
have z' : e^T *m w = 0 by rewrite -[LHS]trmxK trmx_mul trmxK z trmx0.
by rewrite /n2 [(e + w)^T]linearD /= mulmxDl !mulmxDr z z' add0r addr0 mxE.
Qed.

(** A least-squares problem |e + H d|^2 whose value splits into a quadratic in a
    block E d of the unknowns, a constant, and a non-negative rest that every value
    of the block can bring to zero in exactly one way. *)
Section Abstract.
Variables (m N n : nat) (e : 'cV[R]_m) (H : 'M[R]_(m, N)) (E : 'M[R]_(n, N)) (a xh : 'cV[R]_n) (P : 'M[R]_n) (c : R).
Variable D : 'cV[R]_N -> R.
Hypothesis hP : pd P.
Hypothesis split : forall d, n2 (e + H *m d) = qf (invmx P) (a + E *m d - xh) + c + D d.
Hypothesis D0 : forall d, 0 <= D d.
Hypothesis reach : forall v, exists2 d, a + E *m d = v & D d = 0.
Hypothesis only : forall d d', E *m d = E *m d' -> D d = 0 -> D d' = 0 -> d = d'.

Lemma cost_ge d : c <= n2 (e + H *m d).
Proof. by rewrite split [_ + c]addrC -addrA ler_addl addr_ge0 ?D0 // qf_inv_ge0. Qed.
Lemma cost_le d : n2 (e + H *m d) <= c -> a + E *m d = xh /\ D d = 0.
Proof.
rewrite split [_ + c]addrC -addrA ger_addl => le.
have q0 := qf_inv_ge0 (a + E *m d - xh) hP.
have : qf (invmx P) (a + E *m d - xh) + D d == 0 by rewrite eq_le le addr_ge0 ?D0.
rewrite paddr_eq0 ?D0 // => /andP [/eqP /(qf_inv_eq0 hP) /eqP h /eqP ->].
by move: h; rewrite subr_eq0 => /eqP ->.
Qed.
Lemma cost_attained : exists2 d, a + E *m d = xh & n2 (e + H *m d) = c.
Proof.
have [d ed Dd] := reach xh; exists d => //.
by rewrite split ed subrr /qf mulmx0 mxE add0r Dd addr0.
Qed.
Lemma minimiser_block d : (forall d', n2 (e + H *m d) <= n2 (e + H *m d')) -> a + E *m d = xh.
Proof. by move=> h; have [d' _ e'] := cost_attained; have := h d'; rewrite e' => /cost_le []. Qed.

Lemma normal_pd : pd (H^T *m H).
Proof.
split; first by rewrite /symmx trmx_mul trmxK.
move=> d d0; have -> : qf (H^T *m H) d = n2 (H *m d) by rewrite /qf /n2 trmx_mul !mulmxA.
rewrite lt_def n2_ge0 andbT; apply: contra d0 => /eqP /n2_eq0 h.
have [d1 _ e1] := cost_attained.
have [b1 D1] : a + E *m d1 = xh /\ D d1 = 0 by apply: cost_le; rewrite e1.
have [b2 D2] : a + E *m (d1 + d) = xh /\ D (d1 + d) = 0 by apply: cost_le; rewrite mulmxDr h addr0 e1.
have eb : E *m (d1 + d) = E *m d1 by apply: (@addrI _ a); rewrite b1 b2.
by rewrite -[d](addKr d1) (only eb D2 D1) addNr.
Qed.

Lemma block_covariance : E *m invmx (H^T *m H) *m E^T = P.
Proof.
set A := H^T *m H; have hA := normal_pd; rewrite -/A in hA; have uA := pd_unit hA; have sA := pd_sym hA.
pose d0 := - invmx A *m (H^T *m e).
have opt : H^T *m (e + H *m d0) = 0.
  by rewrite mulmxDr (mulmxA H^T H) -/A /d0 mulNmx mulmxN mulKVmx // subrr.
have val d : n2 (e + H *m (d0 + d)) = n2 (e + H *m d0) + n2 (H *m d).
  by rewrite mulmxDr addrA n2_orth.
have cmin : n2 (e + H *m d0) = c.
  apply/eqP; rewrite eq_le cost_ge andbT; have [d1 _ <-] := cost_attained.
  have -> : d1 = d0 + (d1 - d0) by rewrite addrC subrK.
  by rewrite val ler_addl n2_ge0.
have [b0 D00] : a + E *m d0 = xh /\ D d0 = 0 by apply: cost_le; rewrite cmin.
have quad d : qf A d = qf (invmx P) (E *m d) + D (d0 + d).
  have := split (d0 + d); rewrite val cmin mulmxDr addrA b0 [xh + _]addrC addrK.
  have -> : n2 (H *m d) = qf A d by rewrite /qf /n2 trmx_mul !mulmxA.
  by rewrite [_ + c]addrC -addrA => /addrI.
have reach0 v : exists2 d, E *m d = v & qf A d = qf (invmx P) v.
  have [d ed Dd] := reach (xh + v).
  have ed' : E *m (d - d0) = v.
    have -> : v = E *m d0 + v - E *m d0 by rewrite addrC addKr.
    by rewrite mulmxBr; congr (_ - _); apply: (@addrI _ a); rewrite ed -b0 addrA.
  by exists (d - d0); rewrite // quad ed' [d0 + _]addrC subrK Dd addr0.
set B := E *m invmx A *m E^T.
have sB : B^T = B by rewrite /B !trmx_mul trmxK inv_sym // mulmxA.
have hB : pd B.
  split=> // w w0; rewrite qf_congr; have [_ h] := pd_inv hA; apply: h.
  apply: contra w0 => /eqP h; have [d ed _] := reach0 w.
  apply/eqP; apply: n2_eq0; by rewrite /n2 -{1}ed trmx_mul -mulmxA h mulmx0 mxE.
have key w : qf B w = qf (B *m invmx P *m B) w.
  have -> : B *m invmx P *m B = B *m invmx P *m B^T by rewrite sB.
  rewrite qf_congr sB; pose d := invmx A *m E^T *m w.
  have Ed : E *m d = B *m w by rewrite /d /B !mulmxA.
  have Ad : A *m d = E^T *m w by rewrite /d -(mulmxA (invmx A)) mulKVmx.
  have qd : qf A d = qf B w.
    by rewrite /qf -mulmxA Ad /d !trmx_mul trmxK inv_sym // /B !mulmxA.
  have [d' Ed' qd'] := reach0 (B *m w).
  apply/eqP; rewrite eq_le -{1}qd' -{2}qd; apply/andP; split; last by rewrite quad Ed ler_addl D0.
  have dd : E *m (d' - d) = 0 by rewrite mulmxBr Ed Ed' subrr.
  have -> : qf A d' = qf A d + qf A (d' - d).
    rewrite -{1}[d'](subrK d) [_ + d]addrC; move: (d' - d) dd => f dd.
    have c1 : f^T *m A *m d = 0 by rewrite -mulmxA Ad mulmxA -trmx_mul dd trmx0 mul0mx.
    have c2 : d^T *m A *m f = 0 by rewrite -[LHS]trmxK (trmx_mul (d^T *m A)) (trmx_mul d^T A) trmxK sA mulmxA c1 trmx0.
    by rewrite /qf [(d + f)^T]linearD /= !mulmxDl !mulmxDr c1 c2 add0r addr0 mxE.
  rewrite -qd ler_addl; by have [_] := pd_psd hA.
have eB := qf_ext sB _ key.
have {eB} eB : B = B *m invmx P *m B by apply: eB; rewrite (trmx_mul (B *m _)) (trmx_mul B) inv_sym ?(pd_sym hP) // sB mulmxA.
have uB := pd_unit hB.
have e1 : invmx P *m B = 1%:M by rewrite -[LHS](mulKmx uB) (mulmxA B) -eB mulVmx.
by rewrite -[B](mulKVmx (pd_unit hP)) e1 mulmx1.
Qed.
End Abstract.
End Marginal.
