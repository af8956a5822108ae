(** delay, observe_on and debounce_time with a destination that calls the source back while it is
    told something, as in a loop (a subject, delayed, whose destination pushes into the subject).
    No proofs in this file.

    The operators and their system are those of TimeModel.v; here the destination, in answer to
    what it is told by a task of the operator, also makes calls on the operator's source. These
    reach the operator at once, as a task of it holds only the shared parts of its subscriber. All
    the while the destination is locked: by the task
    (crates/rx_core_operator_delay/src/delay_subscriber.rs:77, the same in observe_on_subscriber.rs:68
    and debounce_time_subscriber.rs:79), so that what the operator tells it is put into the queue of
    the [SharedSubscriber] (crates/rx_core_common/src/subscribers/subscriber_shared.rs), and applied
    when the task's clone of it is dropped (:416-424) after the lock was released.
    While the source is calling the operator, the operator's subscriber is borrowed, and further
    calls of the source can only come after this one: these are calls like any others.
    Simplified: when the destination, told something, both closes itself and makes calls, it makes
    them after. *)
From Coq Require Import ZArith.
From Verif Require Import Base SubscrModel SchedModel TimeModel.
Set Implicit Arguments.

(** [SubscriberDeferredState], subscriber_shared.rs:35-53. *)
Record deferred (A E : Type) : Type := mkDf {
  df_q : list (ncall A E);     (* deferred_notifications_queue *)
  df_closed : bool;            (* closed_flag *)
  df_uns : bool;               (* observed_unsubscribe *)
  df_cmp : bool;               (* observed_completion *)
  df_err : bool                (* observed_error *)
}.
(** The state of the operator's subscriber, with that of the [SharedSubscriber] in it. *)
Record loop_st (C A E : Type) : Type := mkLp { lp_ct : C; lp_df : deferred A E }.

Section Loop.
Variables C A E X K : Type.
Notation W := (world A A E (loop_st C A E) K X).
Notation call := (ncall A E).
Notation teller := (call -> W -> W).

Definition ctr (w : W) : C := lp_ct (w_st w).
Definition dfr (w : W) : deferred A E := lp_df (w_st w).
Definition set_ct (s : C) (w : W) : W := st (mkLp s (dfr w)) w.
Definition set_df (s : deferred A E) (w : W) : W := st (mkLp (ctr w) s) w.

(** subscriber_shared.rs:88-93 [is_closed] *)
Definition flagged (w : W) : bool :=
  df_closed (dfr w) || df_cmp (dfr w) || df_uns (dfr w) || df_err (dfr w).

(** The operator's methods, given how [destination.is_closed()] answers and what a call on
    [destination] does. *)
Definition up_fn : Type := (W -> bool) -> teller -> call -> W -> W.
Variable op_up : up_fn.

(** *** While the destination is locked. *)
(** :60-70 [defer_notification]: [observed_unsubscribe] has been set by then, so no unsubscription
    counts as the first. *)
Definition push (c : call) (w : W) : W :=
  let s := dfr w in
  if df_closed s then w
  else set_df (mkDf (df_q s ++ [c]) (df_closed s) (df_uns s) (df_cmp s) (df_err s)) w.
(** :325-361, :377-392; [try_lock] fails, in [is_closed] (:368-375) too. *)
Definition hold : teller := fun c w =>
  let s := dfr w in
  match c with
  | Nxt _ => if flagged w then w else push c w
  | Err _ => if flagged w then w
             else push c (set_df (mkDf (df_q s) (df_closed s) (df_uns s) (df_cmp s) true) w)
  | Cmp => if flagged w then w
           else push c (set_df (mkDf (df_q s) (df_closed s) (df_uns s) true (df_err s)) w)
  | Uns => if df_uns s then w
           else push c (set_df (mkDf (df_q s) (df_closed s) true (df_cmp s) (df_err s)) w)
  end.

(** A call of the source made by the destination; the source keeps to its rules, see [up] of
    TimeModel.v. *)
Definition nested (w : W) (c : call) : W :=
  if negb (w_born w) then w else
  match c with
  | Nxt _ => if w_over w then w else op_up flagged hold c (note (XUp c) w)
  | Uns => op_up flagged hold c (set_over (note (XUp c) w))
  | _ => if w_over w then w else op_up flagged hold c (set_over (note (XUp c) w))
  end.

(** [answer]: the calls the destination makes on the source, given all it was told. *)
Variable answer : list call -> list call.

(** Telling the destination, whose lock is held; [tell] is that of TimeModel.v. *)
Definition hit (tell : teller) (c : call) (w : W) : W :=
  if w_shut w then tell c w
  else let w1 := tell c w in fold_left nested (answer (outs (w_tr w1))) w1.

(** :202-245 [apply_notification_queue] *)
Definition apply_one (tell : teller) (w : W) (c : call) : W :=
  let w1 := if df_closed (dfr w) then w else hit tell c w in
  match c with
  | Nxt _ => w1
  | _ => let s := dfr w1 in set_df (mkDf (df_q s) true (df_uns s) (df_cmp s) (df_err s)) w1
  end.
Fixpoint apply_queue (n : nat) (tell : teller) (w : W) : W :=
  match n with
  | O => set_panic w
  | S n' =>
      match df_q (dfr w) with
      | [] => w
      | q => let s := dfr w in
             apply_queue n' tell
               (fold_left (apply_one tell) q (set_df (mkDf [] (df_closed s) (df_uns s) (df_cmp s) (df_err s)) w))
      end
  end.
Definition settle : teller -> W -> W := apply_queue 10.             (* :11 *)

(** *** While it is not, and the source calls: :247-307, :325-361, :377-392. The queue comes first. *)
Definition shared (tell : teller) : teller := fun c w =>
  let w0 := settle tell w in
  let s := dfr w0 in
  match c with
  | Nxt _ => if flagged w || w_shut w then w else tell c w0
  | Err _ => if flagged w || w_shut w then w
             else tell c (set_df (mkDf (df_q s) (df_closed s) (df_uns s) (df_cmp s) true) w0)
  | Cmp => if flagged w || w_shut w then w
           else tell c (set_df (mkDf (df_q s) (df_closed s) (df_uns s) true (df_err s)) w0)
  | Uns => if df_uns (dfr w) then w
           else tell c (set_df (mkDf (df_q s) true true (df_cmp s) (df_err s)) w0)
  end.
Definition is_closed (w : W) : bool := flagged w || w_shut w.       (* :368-375 *)

Definition loop_new (s : C) : loop_st C A E := mkLp s (mkDf [] false false false false).
End Loop.

Section Counted.
Variables A E X K : Type.
Notation W := (world A A E (loop_st counted A E) K X).
Notation call := (ncall A E).
Notation teller := (call -> W -> W).
Variable op_up : up_fn counted A E X K.
Variable answer : list call -> list call.

(** The task of a value: delay_subscriber.rs:76-101 (observe_on :67-92, debounce_time :78-103).
    After the value, :82-100. *)
Definition wind_up (after : Z -> Z) (tell : teller) (w1 : W) : W :=
  let s := ctr w1 in
  let w2 := set_ct (mkCt (ct_done s) (ct_off s) (after (ct_n s))) w1 in
  settle op_up answer tell
    (if ct_done s && (ct_n s =? 1)%Z && negb (w_shut w2) then hit op_up answer tell Cmp w2
     else if ct_off s && (ct_n s =? 1)%Z && negb (w_shut w2) then hit op_up answer tell Uns w2 else w2).
Definition deliver_loop (after : Z -> Z) (tell : teller) (a : A) (w : W) : W :=
  wind_up after tell (if w_shut w then w else hit op_up answer tell (Nxt a) w).

End Counted.

(** *** The operators. *)
Section Ops.
Variables A E X : Type.
Variable answer : list (ncall A E) -> list (ncall A E).

Definition delay_op (d : nat) : up_fn counted A E X A := fun closed tell c w =>
  let s := ctr w in
  match c with
  | Nxt a =>                                                       (* delay_subscriber.rs:68-105 *)
      ask (QSched 0 (KDelayed d) (KO a)) (set_ct (mkCt (ct_done s) (ct_off s) (ct_n s + 1)) w)
  | Err e =>                                                       (* :108-113 *)
      tell (Err e) (ask (QCancel 0) (set_ct (mkCt (ct_done s) true 0) w))
  | Cmp =>                                                         (* :116-125 *)
      let w1 := set_ct (mkCt true true (ct_n s)) w in
      if (ct_n s =? 0)%Z then tell Cmp w1 else w1
  | Uns =>                                                         (* :138-148 *)
      if closed w || ct_off s then w else
      let w1 := set_ct (mkCt (ct_done s) true (ct_n s)) w in
      if (ct_n s =? 0)%Z then tell Uns w1 else w1
  end.
Definition delay_loop (d : nat) : timed A A E (loop_st counted A E) A X :=
  {| t_torn := true;                                               (* :45-49 *)
     t_new := loop_new A E (mkCt false false 0);
     t_sub := fun _ w => w;
     t_up := fun tell => delay_op d (@is_closed counted A E X A) (shared (delay_op d) answer tell);
     t_run := fun tell a _ w => (a, true, deliver_loop (delay_op d) answer (fun n => n - 1)%Z tell a w) |}.

Definition observe_on_op : up_fn counted A E X (option A) := fun closed tell c w =>
  let s := ctr w in
  match c with
  | Nxt a =>                                                       (* observe_on_subscriber.rs:59-95 *)
      ask (QSched 0 KImmediate (KO (Some a))) (set_ct (mkCt (ct_done s) (ct_off s) (ct_n s + 1)) w)
  | Err e => tell (Err e) (set_ct (mkCt (ct_done s) true (ct_n s)) w)      (* :98-101 *)
  | Cmp =>                                                         (* :104-122 *)
      let w1 := set_ct (mkCt true true (ct_n s)) w in
      if (ct_n s =? 0)%Z then tell Cmp w1 else ask (QSched 0 KImmediate (KO None)) w1
  | Uns =>                                                         (* :135-145 *)
      if closed w then w else
      let w1 := set_ct (mkCt (ct_done s) true (ct_n s)) w in
      if (ct_n s =? 0)%Z then tell Uns w1 else w1
  end.
Definition observe_on_loop : timed A A E (loop_st counted A E) (option A) X :=
  {| t_torn := true;                                               (* :38-41 *)
     t_new := loop_new A E (mkCt false false 0);
     t_sub := fun _ w => w;
     t_up := fun tell => observe_on_op (@is_closed counted A E X (option A)) (shared observe_on_op answer tell);
     t_run := fun tell o _ w =>
       (o, true, match o with
                 | Some a => deliver_loop observe_on_op answer (fun n => n - 1)%Z tell a w
                 | None => let s := ctr w in set_ct (mkCt (ct_done s) (ct_off s) (ct_n s - 1)) w
                 end) |}.

Definition debounce_op (d : nat) : up_fn counted A E X A := fun closed tell c w =>
  let s := ctr w in
  match c with
  | Nxt a =>                                                       (* debounce_time_subscriber.rs:68-107 *)
      ask (QSched 0 (KDelayed d) (KO a))
        (set_ct (mkCt (ct_done s) (ct_off s) 1) (ask (QCancel 0) w))
  | Err e =>                                                       (* :110-115 *)
      tell (Err e) (ask (QCancel 0) (set_ct (mkCt (ct_done s) true 0) w))
  | Cmp =>                                                         (* :118-127 *)
      let w1 := set_ct (mkCt true true (ct_n s)) w in
      if (ct_n s =? 0)%Z then tell Cmp w1 else w1
  | Uns =>                                                         (* :140-150 *)
      if closed w || ct_off s then w else
      let w1 := set_ct (mkCt (ct_done s) true (ct_n s)) w in
      if (ct_n s =? 0)%Z then tell Uns w1 else w1
  end.
Definition debounce_loop (d : nat) : timed A A E (loop_st counted A E) A X :=
  {| t_torn := true;                                               (* :45-49 *)
     t_new := loop_new A E (mkCt false false 0);
     t_sub := fun _ w => w;
     t_up := fun tell => debounce_op d (@is_closed counted A E X A) (shared (debounce_op d) answer tell);
     t_run := fun tell a _ w => (a, true, deliver_loop (debounce_op d) answer (fun _ => 0)%Z tell a w) |}.
End Ops.
