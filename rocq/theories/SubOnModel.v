(** subscribe_on on the executor of SchedModel.v, next to arbitrary other tasks, in the
    framework of TimeModel.v. No proofs in this file. *)
From Verif Require Import Base SubscrModel SchedModel TimeModel.
Set Implicit Arguments.

Section SubscribeOn.
Variables A E X : Type.
Notation W := (world A A E bool unit X).

(** The source is subscribed to; recorded as another [XSub]. What was said before it was
    subscribed to was said by nobody, so the source is not over. *)
Definition open_source (w : W) : W :=
  mkW true (w_born w) (w_shut w) false (w_panic w) (w_tr w ++ [XSub]) (w_rs w).

(** One call made by the source while it is being subscribed to. A source that made its
    terminal call makes no further one. *)
Definition source_call (tell : ncall A E -> W -> W) (w : W) (c : ncall A E) : W :=
  if w_over w then w else
  let w1 := note (XUp c) w in
  tell c (match c with Nxt _ => w1 | _ => set_over w1 end).

(** rx_core_operator_subscribe_on/src/subscribe_on_subscription.rs:35-84 (operator and
    observable only pass the arguments on, subscribe_on_operator.rs, subscribe_on_observable.rs:
    62-77). [src]: the calls the source makes inside [subscribe]; its later calls are those of
    the framework ([CUp]), as is the unsubscription ([CUp Uns]). The state is whether the
    source was subscribed to. Simplified: the destination is told directly and not through a
    SharedSubscriber, because it does not call back (C26 and C27 are about those that do);
    what the source's own subscription does when it is torn down is not modelled, only that
    the scheduled task is cancelled ([t_torn], :77-78). *)
Definition subscribe_on (d : nat) (src : list (ncall A E)) : timed A A E bool unit X :=
  {| t_torn := true;
     t_new := false;
     t_sub := fun _ w => ask (QSched 0 (KDelayed d) (KO tt)) w;      (* :46-74 *)
     t_up := fun tell c w =>
       match c with
       | Uns => tell Uns w                                           (* delegated, :16-27 *)
       | _ => if w_st w then tell c w else w
       end;
     t_run := fun tell _ _ w =>                                      (* :54-71 *)
       (tt, true, if w_shut w then w
                  else fold_left (source_call tell) src (open_source w)) |}.
End SubscribeOn.
