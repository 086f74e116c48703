(** Model of object identity and mutation: navlie/types.py, composite.py, lib/states.py, lib/imu.py
    (the copy methods), lib/models.py (what evaluate does to its arguments) and filters.py
    (ExtendedKalmanFilter.predict and correct), on an explicit heap.

    A numpy array is an object pointing to a buffer; a view is another array object pointing to
    the same buffer.  Attributes holding objects are references, attributes holding immutable
    values (stamp, state_id, direction) are in [ometa].  Numbers computed by the library are
    arbitrary: only which memory is read, written and shared matters here. *)
From mathcomp Require Import all_ssreflect.
From Verif Require Import Base.
Set Implicit Arguments.
Unset Strict Implicit.
Unset Printing Implicit Defensive.

Inductive cls := Buffer | Array | List | VectorS | LieS | CompositeS | ImuS | Estimate | VecInput | ImuInput | CompInput | Mixture.
Section Heap.
Variables (V M : Type).          (* array entries; immutable attribute values *)
(** an object.  The references are, by class: Array: its buffer; List: the elements; VectorS,
    LieS: value; CompositeS, ImuS: value (a list); Estimate (StateWithCovariance): state,
    covariance; VecInput: value and, if not None, covariance; ImuInput: gyro, accel, the two
    walks and, if not None, covariance; CompInput: input_list; Mixture: model_states,
    model_probabilities.  [ometa]: stamp, state_id and for LieS direction *)
Record obj := Obj { ocls : cls; orefs : seq nat; ometa : seq M; odata : seq V }.
Definition heap := seq obj.
Definition get (h : heap) (a : nat) : option obj := nth None (map Some h) a.
Definition put (h : heap) (a : nat) (o : obj) : heap := set_nth o h a o.
Definition alloc (h : heap) (o : obj) : heap * nat := (rcons h o, size h).
Definition getr (h : heap) (a : nat) : result obj := if get h a is Some o then Ok o else Raise AttributeError.
Definition ref (o : obj) (i : nat) : result nat := py_nth (orefs o) i.

(** np.ndarray.copy(), np.array(...): a new array with its own buffer *)
Definition new_array (h : heap) (d : seq V) : heap * nat :=
  let: (h1, b) := alloc h (Obj Buffer [::] [::] d) in alloc h1 (Obj Array [:: b] [::] [::]).
Definition array_data (h : heap) (a : nat) : result (seq V) :=
  o <~ getr h a ;; b <~ ref o 0 ;; ob <~ getr h b ;; Ok (odata ob).
Definition copy_array (h : heap) (a : nat) : result (heap * nat) :=
  d <~ array_data h a ;; Ok (new_array h d).
(** copies of all the elements, in order *)
Fixpoint copy_all (cp : heap -> nat -> result (heap * nat)) (h : heap) (s : seq nat) : result (heap * seq nat) :=
  if s is a :: s' then
    r <~ cp h a ;; r' <~ copy_all cp r.1 s' ;; Ok (r'.1, r.2 :: r'.2)
  else Ok (h, [::]).

Variables (id_pose id_gyro id_accel : M).    (* "pose", "gyro_bias", "accel_bias" *)
(** <object>.copy().  [n] bounds the nesting (Python recurses; RecursionError if it is too deep) *)
Fixpoint copy (n : nat) (h : heap) (a : nat) : result (heap * nat) :=
  if n is n'.+1 then
    o <~ getr h a ;;
    match ocls o with
    | Buffer => Raise AttributeError
    | Array => copy_array h a
    (* a list is copied element by element where the code says [x.copy() for x in ...] *)
    | List => r <~ copy_all (copy n') h (orefs o) ;; Ok (alloc r.1 (Obj List r.2 (ometa o) [::]))
    (* VectorState.copy, states.py:54-55; MatrixLieGroupState.copy, 136-152 *)
    | VectorS | LieS =>
        v <~ ref o 0 ;; r <~ copy_array h v ;; Ok (alloc r.1 (Obj (ocls o) [:: r.2] (ometa o) [::]))
    (* CompositeState.copy, composite.py:246-252; CompositeInput.copy, 431-432 *)
    | CompositeS | CompInput =>
        v <~ ref o 0 ;; ol <~ getr h v ;; r <~ copy_all (copy n') h (orefs ol) ;;
        let: (h1, l) := alloc r.1 (Obj List r.2 (ometa ol) [::]) in Ok (alloc h1 (Obj (ocls o) [:: l] (ometa o) [::]))
    (* IMUState.copy, imu.py:256-269: through the constructor (imu.py:168-176), which stamps the three
       substates with the stamp of the composite state and names them *)
    | ImuS =>
        v <~ ref o 0 ;; ol <~ getr h v ;;
        p <~ ref ol 0 ;; g <~ ref ol 1 ;; b <~ ref ol 2 ;;
        op <~ getr h p ;; og <~ getr h g ;; ob <~ getr h b ;;
        vp <~ ref op 0 ;; vg <~ ref og 0 ;; vb <~ ref ob 0 ;;
        stamp <~ py_nth (ometa o) 0 ;; dir <~ py_nth (ometa op) 2 ;;
        rp <~ copy_array h vp ;; rg <~ copy_array rp.1 vg ;; rb <~ copy_array rg.1 vb ;;
        let: (h1, np) := alloc rb.1 (Obj LieS [:: rp.2] [:: stamp; id_pose; dir] [::]) in
        let: (h2, ng) := alloc h1 (Obj VectorS [:: rg.2] [:: stamp; id_gyro] [::]) in
        let: (h3, nb) := alloc h2 (Obj VectorS [:: rb.2] [:: stamp; id_accel] [::]) in
        let: (h4, l) := alloc h3 (Obj List [:: np; ng; nb] (ometa ol) [::]) in
        Ok (alloc h4 (Obj ImuS [:: l] (ometa o) [::]))
    (* StateWithCovariance.copy, types.py:566-567 *)
    | Estimate =>
        s <~ ref o 0 ;; c <~ ref o 1 ;; rs <~ copy n' h s ;; rc <~ copy_array rs.1 c ;;
        Ok (alloc rc.1 (Obj Estimate [:: rs.2; rc.2] (ometa o) [::]))
    (* VectorInput.copy, states.py:734-740: the covariance is passed on as it is *)
    | VecInput =>
        v <~ ref o 0 ;; r <~ copy_array h v ;; Ok (alloc r.1 (Obj VecInput (r.2 :: behead (orefs o)) (ometa o) [::]))
    (* IMU.copy, imu.py:92-105 *)
    | ImuInput => r <~ copy_all copy_array h (orefs o) ;; Ok (alloc r.1 (Obj ImuInput r.2 (ometa o) [::]))
    (* MixtureState.copy, states.py:671-673 *)
    | Mixture =>
        l <~ ref o 0 ;; ol <~ getr h l ;; p <~ ref o 1 ;; r <~ copy_all (copy n') h (orefs ol) ;;
        let: (h1, l') := alloc r.1 (Obj List r.2 (ometa ol) [::]) in
        rp <~ copy_array h1 p ;; Ok (alloc rp.1 (Obj Mixture [:: l'; rp.2] (ometa o) [::]))
    end
  else Raise GenericException.

(** assignments: x.attr = r, and x.stamp = s (first immutable attribute) *)
Definition set_ref (h : heap) (a i r : nat) : result heap :=
  o <~ getr h a ;; Ok (put h a (Obj (ocls o) (set_nth r (orefs o) i r) (ometa o) (odata o))).
Definition set_stamp (h : heap) (a : nat) (t : M) : result heap :=
  o <~ getr h a ;; Ok (put h a (Obj (ocls o) (orefs o) (set_nth t (ometa o) 0 t) (odata o))).
(** writing into an array in place: x[...] = ... *)
Definition write_array (h : heap) (a : nat) (d : seq V) : result heap :=
  o <~ getr h a ;; b <~ ref o 0 ;; ob <~ getr h b ;; Ok (put h b (Obj (ocls ob) (orefs ob) (ometa ob) d)).

(** *** What the process models of the library do to memory; [f] is the arithmetic *)
Section Models.
Variable n : nat.                                  (* nesting allowed in copies *)
Variable f : seq V -> seq V -> seq V.
(** SingleIntegrator (models.py:59-62), DoubleIntegrator (97-105), BodyFrameVelocity (239-244),
    RelativeBodyFrameVelocity (315-319): copy the state, assign a newly computed array *)
Definition evaluate_assign (h : heap) (x u : nat) : result (heap * nat) :=
  r <~ copy n h x ;;
  o <~ getr r.1 r.2 ;; v <~ ref o 0 ;; d <~ array_data r.1 v ;;
  ou <~ getr r.1 u ;; vu <~ ref ou 0 ;; du <~ array_data r.1 vu ;;
  let: (h1, w) := new_array r.1 (f d du) in
  h2 <~ set_ref h1 r.2 0 w ;; Ok (h2, r.2).
(** DoubleIntegratorWithBias (models.py:158-180): copy the state and the input, then write into
    the array of the copy *)
Definition evaluate_write (h : heap) (x u : nat) : result (heap * nat) :=
  r <~ copy n h x ;; ru <~ copy n r.1 u ;;
  o <~ getr ru.1 r.2 ;; v <~ ref o 0 ;; d <~ array_data ru.1 v ;;
  ou <~ getr ru.1 ru.2 ;; vu <~ ref ou 0 ;; du <~ array_data ru.1 vu ;;
  h2 <~ write_array ru.1 v (f d du) ;; Ok (h2, r.2).
(** IMUKinematics.evaluate (imu.py:526-564): copy the state and, in get_unbiased_imu (imu.py:300-323),
    the input, whose gyro and accel are replaced by new arrays; then assign newly computed arrays to
    the values of the three substates *)
Definition evaluate_imu (h : heap) (x u : nat) : result (heap * nat) :=
  r <~ copy n h x ;; ru <~ copy n r.1 u ;;
  let: (k1, v1) := new_array ru.1 (f [::] [::]) in
  k2 <~ set_ref k1 ru.2 0 v1 ;;
  let: (k3, v2) := new_array k2 (f [::] [::]) in
  k4 <~ set_ref k3 ru.2 1 v2 ;;
  o <~ getr k4 r.2 ;; l <~ ref o 0 ;; ol <~ getr k4 l ;;
  p <~ ref ol 0 ;; g <~ ref ol 1 ;; b <~ ref ol 2 ;;
  let: (h1, w1) := new_array k4 (f [::] [::]) in
  h2 <~ set_ref h1 p 0 w1 ;;
  let: (h3, w2) := new_array h2 (f [::] [::]) in
  h4 <~ set_ref h3 g 0 w2 ;;
  let: (h5, w3) := new_array h4 (f [::] [::]) in
  h6 <~ set_ref h5 b 0 w3 ;; Ok (h6, r.2).
(** CompositeProcessModel.evaluate (composite.py:478-492); [subs] gives the model and its input for
    each substate (u itself with a shared input, u.input_list[i] otherwise) *)
Fixpoint evaluate_subs (h : heap) (lst : nat) (i : nat) (xs : seq nat) (subs : seq ((heap -> nat -> nat -> result (heap * nat)) * nat)) : result heap :=
  match xs, subs with
  | x :: xs', s :: subs' =>
      r <~ s.1 h x s.2 ;; h1 <~ set_ref r.1 lst i r.2 ;; evaluate_subs h1 lst i.+1 xs' subs'
  | _ :: _, [::] => Raise IndexError
  | [::], _ => Ok h
  end.
Definition evaluate_composite (subs : seq ((heap -> nat -> nat -> result (heap * nat)) * nat)) (h : heap) (x u : nat) : result (heap * nat) :=
  r <~ copy n h x ;; o <~ getr r.1 r.2 ;; l <~ ref o 0 ;; ol <~ getr r.1 l ;;
  h1 <~ evaluate_subs r.1 l 0 (orefs ol) subs ;; Ok (h1, r.2).
(** State.plus: VectorState (states.py:36-42), MatrixLieGroupState (117-125): copy, then assign a newly
    computed array.  The second argument is not used *)
Definition plus_plain (dx : seq V) (h : heap) (x u : nat) : result (heap * nat) :=
  r <~ copy n h x ;;
  o <~ getr r.1 r.2 ;; v <~ ref o 0 ;; d <~ array_data r.1 v ;;
  let: (h1, w) := new_array r.1 (f d dx) in
  h2 <~ set_ref h1 r.2 0 w ;; Ok (h2, r.2).
(** CompositeState.plus (composite.py:254-268) *)
Definition plus_composite (dxs : seq (seq V)) (h : heap) (x u : nat) : result (heap * nat) :=
  evaluate_composite (map (fun dx => (plus_plain dx, 0)) dxs) h x u.
End Models.

(** *** The filter *)
Section Filter.
Variable n : nat.
(** process_model.evaluate (filters.py:151-153), as a function on the heap; the Jacobian and Q are
    new arrays, not modelled.  [plus]: x.state.plus(dx).  [measure]: what evaluating the measurement
    model on x.state does to memory *)
Variables (evaluate plus : heap -> nat -> nat -> result (heap * nat)) (measure : heap -> nat -> result heap).
Variable new_cov : seq V.                  (* the covariance computed *)
Variable stamp' : M.                       (* t_km1 + dt *)
(** ExtendedKalmanFilter.predict, filters.py:129-162: x_new = x.copy(); x_new.state is what the model
    returns for x.state; the covariance is a new array (and again after symmetrize); the stamp is
    written into the state *)
Definition predict (h : heap) (x u : nat) : result (heap * nat) :=
  r <~ copy n h x ;;
  ox <~ getr r.1 x ;; xs <~ ref ox 0 ;;
  re <~ evaluate r.1 xs u ;;
  h1 <~ set_ref re.1 r.2 0 re.2 ;;
  let: (h2, c) := new_array h1 new_cov in
  h3 <~ set_ref h2 r.2 1 c ;;
  h4 <~ set_stamp h3 re.2 stamp' ;; Ok (h4, r.2).
(** ExtendedKalmanFilter.correct, filters.py:207-262: a copy, stamped if it has no stamp ([stamp0]),
    predicted to the time of the measurement if necessary; the measurement model is evaluated on its
    state; unless there is no measurement or it is an outlier, x.state = x.state.plus(dx) and the
    covariance is a new array *)
Definition correct (stamp0 : option M) (do_predict accept : bool) (h : heap) (x u : nat) : result (heap * nat) :=
  r <~ copy n h x ;;
  ox <~ getr r.1 r.2 ;; xs <~ ref ox 0 ;;
  h1 <~ (if stamp0 is Some t then set_stamp r.1 xs t else Ok r.1) ;;
  r1 <~ (if do_predict then predict h1 r.2 u else Ok (h1, r.2)) ;;
  ox1 <~ getr r1.1 r1.2 ;; xs1 <~ ref ox1 0 ;;
  h2 <~ measure r1.1 xs1 ;;
  if accept then
    re <~ plus h2 xs1 u ;;
    h3 <~ set_ref re.1 r1.2 0 re.2 ;;
    let: (h4, c) := new_array h3 new_cov in
    h5 <~ set_ref h4 r1.2 1 c ;; Ok (h5, r1.2)
  else Ok (h2, r1.2).
End Filter.
End Heap.
