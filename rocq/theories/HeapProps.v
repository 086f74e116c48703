(** C67: copies are independent of their originals, and the filters do not modify the estimate they
    are given. *)
From mathcomp Require Import all_ssreflect.
From Verif Require Import Base HeapModel HeapProof HeapOps.
Set Implicit Arguments.
Unset Strict Implicit.
Unset Printing Implicit Defensive.

Section C67.
Variables (V M : Type) (id_pose id_gyro id_accel : M).
Notation heap := (heap V M).
Notation copy := (@copy V M id_pose id_gyro id_accel).
Implicit Types h : heap.

(** Copying changes nothing that existed; whatever code does with the copy (overwriting any attribute,
    list element or array entry it can reach from it, at any depth, and creating objects), the original
    reads the same, to any depth; and whatever code does with objects that existed before the copy was
    made (the original among them), the copy reads the same *)
Theorem C67_copy_independent n h a r :
  wf h -> no_input_cov h a -> copy n h a = Ok r ->
  untouched h r.1 /\
  (forall h' rs' b m, client r.1 [:: r.2] h' rs' -> b < size h -> read m h' b = read m h b) /\
  (forall rs h' rs' m, (forall b, b \in rs -> b < size h) -> client r.1 rs h' rs' -> read m h' r.2 = read m r.1 r.2).
Proof.
move=> w nc e; have [u w' [rl nr]] := copy_good w nc e; split=> //; split=> [h' rs' b m cl bl|rs h' rs' m rsl cl].
  have bl' : b < size r.1 by case: u => l _; exact: leq_trans l.
  rewrite (client_frame m cl w' _ bl') ?(untouched_read m w bl u) //; first by move=> c; rewrite inE => /eqP ->.
  move=> c [d]; rewrite inE => /eqP -> /nr cn /(untouched_reach c w bl u) rc.
  by have := reach_lt w bl rc; rewrite ltnNge cn.
apply: client_frame cl w' _ rl _; first by move=> b /rsl; case: u => l _ bl; exact: leq_trans l.
move=> c [d /rsl dl /(untouched_reach c w dl u) rd] /nr cn; by have := reach_lt w dl rd; rewrite ltnNge cn.
Qed.
(** and when it is made the copy reads like the original *)
Theorem C67_copy_same n h a r m :
  wf h -> no_input_cov h a -> regular id_pose id_gyro id_accel h a -> copy n h a = Ok r ->
  read m r.1 r.2 = read m h a.
Proof. exact: copy_read. Qed.

(** evaluating a library process model on a state, or x.plus(dx), changes no object that existed and
    returns a state in new memory *)
Theorem C67_models_leave_arguments_alone n f dx h x u r :
  wf h -> leaf_state h x ->
  evaluate_assign id_pose id_gyro id_accel n f h x u = Ok r
    \/ leaf_input h u /\ evaluate_write id_pose id_gyro id_accel n f h x u = Ok r
    \/ has_cls h u ImuInput /\ evaluate_imu id_pose id_gyro id_accel n f h x u = Ok r
    \/ plus_plain id_pose id_gyro id_accel n f dx h x u = Ok r ->
  untouched h r.1 /\ forall c, reach r.1 r.2 c -> size h <= c.
Proof.
move=> w ls H; have [u' w' [_ nr]] : good h r.1 r.2; last by [].
case: H => [e|[[li e]|[[li e]|e]]].
- exact: (assign_pure (inp := fun _ _ => True)) e.
- exact: write_pure e.
- exact: imu_pure e.
- exact: (plus_pure (inp := fun _ _ => True)) e.
Qed.
Theorem C67_composite_leaves_arguments_alone n f subs dxs h x u r :
  wf h -> composite_state h x ->
  (forall j s, j < size subs -> s = nth s subs j -> pure_model (@leaf_input V M) s.1 /\ leaf_input h s.2) ->
  evaluate_composite id_pose id_gyro id_accel n subs h x u = Ok r
    \/ plus_composite id_pose id_gyro id_accel n f dxs h x u = Ok r ->
  untouched h r.1 /\ forall c, reach r.1 r.2 c -> size h <= c.
Proof.
move=> w cs ps H; have [u' w' [_ nr]] : good h r.1 r.2; last by [].
case: H => e; first by apply: (composite_pure _ ps w cs e); exact: leaf_input_step.
apply: (composite_pure (inp := fun _ _ => True) _ _ w cs e) => // j s jl ->; split=> //.
rewrite size_map in jl; rewrite (nth_map [::]) //=; exact: plus_pure.
Qed.

(** predict: with such a model nothing that existed is changed, and the new estimate shares nothing
    with what existed (in particular with the estimate and the input handed in) *)
Theorem C67_predict_keeps_estimate n evaluate new_cov stamp h x u ox xs r :
  wf h -> no_input_cov h x -> get h x = Some ox -> ref ox 0 = Ok xs ->
  (forall h' r', wf h' -> untouched h h' -> evaluate h' xs u = Ok r' ->
     [/\ untouched h' r'.1, wf r'.1 & r'.2 < size r'.1 /\ forall c, reach r'.1 r'.2 c -> size h' <= c]) ->
  predict id_pose id_gyro id_accel n evaluate new_cov stamp h x u = Ok r ->
  untouched h r.1 /\ (forall c, reach r.1 r.2 c -> size h <= c) /\ forall m, read m r.1 x = read m h x.
Proof.
move=> w nc gx ex pe e; have [u' w' [_ nr]] := predict_good w nc gx ex pe e; split=> //; split=> // m.
by apply: untouched_read => //; exact: get_lt gx.
Qed.
(** correct: even if the process model, the measurement model and plus do whatever they like with the
    objects they are given and with other objects [env], the estimate handed in reads the same afterwards, and
    shares nothing with the result; provided the input and [env] do not share memory with it *)
Theorem C67_correct_keeps_estimate n evaluate plus measure new_cov stamp env stamp0 do_predict accept h x u r :
  client_model env evaluate -> client_model env plus -> client_measure env measure ->
  wf h -> x < size h -> (forall a, a \in u :: env -> a < size h) -> no_input_cov h x -> separate h (u :: env) x ->
  correct id_pose id_gyro id_accel n evaluate plus measure new_cov stamp stamp0 do_predict accept h x u = Ok r ->
  (forall m, read m r.1 x = read m h x) /\ separate r.1 [:: r.2] x.
Proof.
move=> cE cP cM w xl ul nc s e; have I := correct_inv cE cP cM w xl ul nc s e; case: (I) => w' rl xl' s' ee; split.
  by move=> m; exact: read_eq.
by apply: separate_sym => c [b]; rewrite inE => /eqP -> rb rc; apply: (s' c) rb; exists r.2; rewrite ?mem_head.
Qed.
End C67.

(** *** Concrete heaps, and what fails *)
Section Concrete.
Notation heapN := (heap nat nat).
Definition wfb (h : heapN) : bool := all (fun o => all (fun b => b < size h) (orefs o)) h.
Lemma get_mem (h : heapN) a o : get h a = Some o -> List.In o h.
Proof.
rewrite /get; elim: h a => [|x h IH] [|a] //=; first by case=> ->; left.
by move=> /IH; right.
Qed.
Lemma all_In (T : Type) (p : pred T) (s : seq T) x : all p s -> List.In x s -> p x.
Proof. by elim: s => //= y s IH /andP[py ps] [<- //|]; exact: IH. Qed.
Lemma wfP h : wfb h -> wf h.
Proof. by move=> H a o b g bi; have /allP := all_In H (get_mem g); apply. Qed.
Definition closed (h : heapN) (s : seq nat) : bool := all (fun a => if get h a is Some o then all (fun b => b \in s) (orefs o) else true) s.
Lemma closed_reach h s a c : closed h s -> a \in s -> reach h a c -> c \in s.
Proof.
move=> cl + R; elim: R => // b o d e g di _ IH bi; apply: IH.
by move/allP: cl => /(_ b bi); rewrite g => /allP; apply.
Qed.
(** an estimate of a two-dimensional position at time 5, an input with a covariance, an IMU state *)
Definition est_heap : heapN := [::
  Obj Buffer [::] [::] [:: 10; 20]; Obj Array [:: 0] [::] [::]; Obj VectorS [:: 1] [:: 5; 0] [::];
  Obj Buffer [::] [::] [:: 1; 0; 0; 1]; Obj Array [:: 3] [::] [::]; Obj Estimate [:: 2; 4] [::] [::];
  Obj Buffer [::] [::] [:: 7]; Obj Array [:: 6] [::] [::]; Obj Buffer [::] [::] [:: 3]; Obj Array [:: 8] [::] [::];
  Obj VecInput [:: 7; 9] [:: 6; 0] [::]].
Notation cp := (copy 100 101 102 3 est_heap).
Notation est_copy := (@copy nat nat 100 101 102 3 est_heap 5).
Lemma est_ok : wf est_heap /\ no_input_cov est_heap 5.
Proof.
split; first exact: wfP.
move=> c o /(@closed_reach est_heap [:: 5; 2; 4; 1; 3; 0] 5) R; have := R isT isT.
by rewrite !inE => /orP[/eqP ->|/orP[/eqP ->|/orP[/eqP ->|/orP[/eqP ->|/orP[/eqP ->|/eqP ->]]]]] [<-].
Qed.
Example C67_copy_witness : exists r, est_copy = Ok r /\ r.2 = 16 /\ read 10 r.1 r.2 = read 10 est_heap 5.
Proof. by eexists; split; [vm_compute; reflexivity|split; vm_compute; reflexivity]. Qed.
Example C67_regular_witness : regular 100 101 102 est_heap 5.
Proof.
move=> c o /(@closed_reach est_heap [:: 5; 2; 4; 1; 3; 0] 5) R; have := R isT isT.
rewrite !inE => /orP[/eqP ->|/orP[/eqP ->|/orP[/eqP ->|/orP[/eqP ->|/orP[/eqP ->|/eqP ->]]]]] [<-] /=; rewrite /built /=.
- by split=> //; exists 2, 4; split=> //; eexists.
- by split=> //; exists 1 => //; eexists.
- by split=> //; exists 3 => //; eexists.
- by split=> //; exists 0 => //; eexists.
- by [].
- by [].
Qed.
(** predict of this estimate with a library model *)
Example C67_predict_witness :
  exists r, predict 100 101 102 3 (evaluate_assign 100 101 102 3 (fun d du => map (addn 7) d)) [:: 2; 0; 0; 2] 6 est_heap 5 10 = Ok r /\
    read 10 r.1 r.2 = Node Estimate [:: Node VectorS [:: Node Array [:: Node Buffer [::] [::] [:: 17; 27]] [::] [::]] [:: 6; 0] [::]; Node Array [:: Node Buffer [::] [::] [:: 2; 0; 0; 2]] [::] [::]] [::] [::]
    /\ read 10 r.1 5 = read 10 est_heap 5.
Proof. by eexists; split; [vm_compute; reflexivity|split; vm_compute; reflexivity]. Qed.

(** VectorInput.copy ("fully separate memory"): the covariance is shared, so writing into the covariance
    of the copy changes the original *)
Theorem C67_input_copy_refuted : exists r h',
  [/\ wf est_heap, @copy nat nat 100 101 102 3 est_heap 10 = Ok r, write_array r.1 9 [:: 99] = Ok h',
      client r.1 [:: r.2] h' [:: r.2] & read 4 h' 10 <> read 4 est_heap 10].
Proof.
eexists; eexists; split; [exact: wfP|vm_compute; reflexivity|vm_compute; reflexivity| |by vm_compute].
apply: (@client_write _ _ _ _ 8 (Obj Buffer [::] [::] [:: 99])) (client_done _ _) => //.
exists 13 => //; apply: (@reach_step _ _ _ 13 (Obj VecInput [:: 12; 9] [:: 6; 0] [::]) 9) => //.
by apply: (@reach_step _ _ _ 9 (Obj Array [:: 8] [::] [::]) 8) => //; exact: reach_refl.
Qed.
(** IMUState.copy: the substates get the stamp of the IMU state and fixed names, whatever theirs were *)
Definition imu_heap : heapN := [::
  Obj Buffer [::] [::] [:: 1]; Obj Array [:: 0] [::] [::]; Obj LieS [:: 1] [:: 5; 100; 0] [::];
  Obj Buffer [::] [::] [:: 2]; Obj Array [:: 3] [::] [::]; Obj VectorS [:: 4] [:: 5; 55] [::];
  Obj Buffer [::] [::] [:: 3]; Obj Array [:: 6] [::] [::]; Obj VectorS [:: 7] [:: 4; 102] [::];
  Obj List [:: 2; 5; 8] [::] [::]; Obj ImuS [:: 9] [:: 5; 0] [::]].
Theorem C67_imu_copy_refuted : exists r,
  wf imu_heap /\ @copy nat nat 100 101 102 3 imu_heap 10 = Ok r /\ read 6 r.1 r.2 <> read 6 imu_heap 10.
Proof.
by eexists; split; [exact: wfP|split; [vm_compute; reflexivity|vm_compute]].
Qed.
(** predict with a process model that returns its argument (as an identity model written "return x"), or
    that works in place: the caller's estimate gets the new stamp *)
Theorem C67_predict_refuted : exists (evaluate : heapN -> nat -> nat -> result (heapN * nat)) r,
  client_model [::] evaluate /\ wf est_heap /\ no_input_cov est_heap 5 /\
  predict 100 101 102 3 evaluate [:: 2; 0; 0; 2] 6 est_heap 5 10 = Ok r /\ read 4 r.1 5 <> read 4 est_heap 5.
Proof.
have [w nc] := est_ok.
exists (fun h x u => Ok (h, x)); eexists; split; last by refine (conj w (conj nc (conj _ _))); [vm_compute; reflexivity|vm_compute].
move=> h x u r [<-] /=; exists [:: x; u]; first exact: client_done.
by exists x; [exact: mem_head|exact: reach_refl].
Qed.
(** while correct with the same model, predicting to the time of the measurement, is safe *)
Example C67_correct_witness : exists r,
  [/\ separate est_heap [:: 10] 5,
      correct 100 101 102 3 (fun h x u => Ok (h, x)) (plus_plain 100 101 102 3 (fun d dx => dx) [:: 8; 9]) (fun h x => Ok h) [:: 2; 0; 0; 2] 6 None true true est_heap 5 10 = Ok r,
      read 10 r.1 5 = read 10 est_heap 5 & read 10 r.1 r.2 <> read 10 est_heap 5].
Proof.
eexists; split; [|vm_compute; reflexivity|vm_compute; reflexivity|by vm_compute] => c [b]; rewrite inE => /eqP -> /(@closed_reach est_heap [:: 10; 7; 6; 9; 8] 10) R1 /(@closed_reach est_heap [:: 5; 2; 4; 1; 3; 0] 5) R2.
by have := R1 isT isT; have := R2 isT isT; rewrite !inE => /orP[/eqP ->|/orP[/eqP ->|/orP[/eqP ->|/orP[/eqP ->|/orP[/eqP ->|/eqP ->]]]]].
Qed.
(** a composite of two vector states with a single integrator on the first and an in-place model on the second *)
Definition comp_heap : heapN := est_heap ++ [::
  Obj Buffer [::] [::] [:: 4]; Obj Array [:: 11] [::] [::]; Obj VectorS [:: 12] [:: 5; 1] [::];
  Obj List [:: 2; 13] [::] [::]; Obj CompositeS [:: 14] [:: 5; 2] [::]].
Notation subs := [:: (@evaluate_assign nat nat 100 101 102 3 (fun d du => map (addn 7) d), 10); (@evaluate_write nat nat 100 101 102 3 (fun d du => du), 10)].
Example C67_composite_witness :
  [/\ wf comp_heap, composite_state comp_heap 15,
      forall j s, j < size subs -> s = nth s subs j -> pure_model (@leaf_input nat nat) s.1 /\ leaf_input comp_heap s.2 &
      exists2 r, evaluate_composite 100 101 102 3 subs comp_heap 15 10 = Ok r & read 8 r.1 r.2 <> read 8 comp_heap 15].
Proof.
split; first exact: wfP.
- eexists; exists 14; eexists; split=> // b; rewrite !inE => /orP[]/eqP ->; left; by eexists.
- have li : leaf_input comp_heap 10 by left; eexists.
  by move=> [|[|//]] s _ -> /=; split=> //; [exact: assign_pure|exact: write_pure].
- by eexists; vm_compute; [reflexivity|].
Qed.
End Concrete.
Print Assumptions C67_copy_independent.
Print Assumptions C67_correct_keeps_estimate.
Print Assumptions C67_predict_refuted.
