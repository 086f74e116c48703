(** Specification of the predict/correct schedule, independent of the indices,
    pointers and trimming loops of the code. *)
From mathcomp Require Import all_ssreflect all_algebra.
From Verif Require Import Base.
Set Implicit Arguments.
Unset Strict Implicit.
Unset Printing Implicit Defensive.
Import Order.Theory GRing.Theory Num.Theory.
Local Open Scope ring_scope.

Section Spec.
Variable T : realDomainType.
Variables (U Y X : Type).
Variables (ustamp : U -> T) (ystamp : Y -> T) (xstamp : X -> T).

(** [schedule us ys]: for each input but the last, the input, the stamp of the
    next input, and the measurements to fuse in that interval: those among the
    not yet fused ones that are strictly earlier than the next input. *)
Fixpoint schedule (us : seq U) (ys : seq Y) : seq (U * T * seq Y) :=
  match us with
  | u :: ((u' :: _) as us') =>
      (u, ustamp u', [seq y <- ys | ystamp y < ustamp u'])
      :: schedule us' [seq y <- ys | ~~ (ystamp y < ustamp u')]
  | _ => [::]
  end.

(** Running a schedule: fuse the batch in order, record, predict to the next
    input's stamp. *)
Fixpoint execute (fuse : X -> Y -> U -> result X) (predict : X -> U -> T -> result X)
  (x : X) (sch : seq (U * T * seq Y)) : result (seq X) :=
  match sch with
  | [::] => Ok [::]
  | (u, tnext, batch) :: rest =>
      x1 <~ foldM (fun x y => fuse x y u) x batch ;;
      x2 <~ predict x1 u (tnext - xstamp x1) ;;
      r <~ execute fuse predict x2 rest ;;
      Ok (x1 :: r)
  end.

(** The same, recording the estimate held before fusing (IMM). *)
Fixpoint execute_imm (fuse : X -> Y -> U -> result X) (predict : X -> U -> T -> result X)
  (x : X) (sch : seq (U * T * seq Y)) : result (seq X) :=
  match sch with
  | [::] => Ok [::]
  | (u, tnext, batch) :: rest =>
      x1 <~ foldM (fun x y => fuse x y u) x batch ;;
      x2 <~ predict x1 u (tnext - xstamp x1) ;;
      r <~ execute_imm fuse predict x2 rest ;;
      Ok (x :: r)
  end.

(** All measurements fused by a schedule, in order. *)
Definition fused (sch : seq (U * T * seq Y)) : seq Y := flatten [seq s.2 | s <- sch].

(** [s'] is a stable sort by [key] of the elements of [s] satisfying [p]:
    it is ordered, and for every stamp it contains exactly the elements of [s]
    with that stamp that satisfy [p], in their original order. *)
Definition stable_selection {A} (key : A -> T) (p : pred A) (s s' : seq A) : Prop :=
  sorted <=%O (map key s') /\
  forall t, [seq a <- s' | key a == t] = [seq a <- s | p a && (key a == t)].

End Spec.

(** What a correct schedule is, for data [inp], [meas] and an initial stamp [t0]:
    - its entries use, in order, all kept inputs but the last, each with the stamp of
      the next kept input;
    - altogether it fuses exactly the measurements in [t0, last kept input), once
      each, in stamp order, ties in original order;
    - a measurement is fused while the interval of its input is current: before
      the next input, and not before its own input (except that measurements
      preceding all kept inputs go with the first). *)
Section ScheduleSpec.
Variable T : realDomainType.
Variables (U Y : Type).
Variables (ustamp : U -> T) (ystamp : Y -> T).

Definition schedule_spec (t0 : T) (inp : seq U) (meas : seq Y) (sch : seq (U * T * seq Y)) : Prop :=
  exists us : seq U, exists ulast : U,
    stable_selection ustamp (fun u => t0 <= ustamp u) inp (rcons us ulast) /\
    [seq e.1.1 | e <- sch] = us /\
    [seq e.1.2 | e <- sch] = behead (map ustamp (rcons us ulast)) /\
    stable_selection ystamp (fun y => (t0 <= ystamp y) && (ystamp y < ustamp ulast)) meas (fused sch) /\
    (forall k e, drop k sch = e :: drop k.+1 sch ->
       all (fun y => ystamp y < e.1.2) e.2 /\
       ((0 < k)%N -> all (fun y => ustamp e.1.1 <= ystamp y) e.2)).
End ScheduleSpec.
