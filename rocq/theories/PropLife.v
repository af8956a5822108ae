(** Properties C43 to C45: the bounded notification queue, the life-cycle flags of a
    subscriber, and notifications as values. *)
From Coq Require Import NArith.
From Verif Require Import Base SubscrModel LifeModel LifeProofs.
Set Implicit Arguments.

(** *** C43: the queue of one source. [nq_run] runs pushes and pops on a new queue of capacity
    [max]; [ideal] is the bounded queue of values: it keeps the most recent [max], or the
    earliest.

    For sources that keep the observer contract, a capacity above 0, and no pop after an error:
    what is popped and what remains is as in the ideal queue, never more than [max] values,
    every other notification is kept in order (an error in its own field), and the flags name
    the notification at the front. *)
Theorem C43_bounded_partial : forall A E max o (h : list (qact A E)), 0 < max ->
  contract false false (pushed h) -> no_pop_after_error false h ->
  exists q, nq_run (nq_new A E max o) h = Some (fst (ideal max o [] h), q) /\
    values (nq_queue q) = snd (ideal max o [] h) /\
    length (values (nq_queue q)) <= max /\
    others (nq_queue q) = filter (@not_error A E) (others (pushed h)) /\
    nq_error q = error_of (pushed h) /\
    match nq_queue q with [] => True | n :: _ => notification_matches_state (nq_state q) n = true end.
Proof. exact @bounded. Qed.
Print Assumptions C43_bounded_partial.

(** Without pops: exactly the last, or exactly the first, [max] of the values pushed. *)
Theorem C43_kept_partial : forall A E max o (ns : list (ncall A E)), 0 < max -> contract false false ns ->
  exists q, nq_run (nq_new A E max o) (map (@QPush A E) ns) = Some ([], q) /\
    values (nq_queue q) = match o with
                          | DropOldest => skipn (length (values ns) - max) (values ns)
                          | IgnoreNext => firstn max (values ns)
                          end.
Proof. exact @kept. Qed.
Print Assumptions C43_kept_partial.

Example C43_example :
  let h := map (@QPush nat nat) [Nxt 1; Nxt 2; Nxt 3] ++ [QPop; QPush (Nxt 4); QPush Cmp; QPush Uns; QPop] in
  contract false false (pushed h) /\ no_pop_after_error false h /\
  option_map (fun r => (fst r, nq_queue (snd r))) (nq_run (nq_new nat nat 2 DropOldest) h) =
    Some ([2; 3], [Nxt 4; Cmp; Uns]) /\
  option_map (fun r => (fst r, nq_queue (snd r))) (nq_run (nq_new nat nat 2 IgnoreNext) h) =
    Some ([1; 2], [Nxt 4; Cmp; Uns]).
Proof. vm_compute. intuition. Qed.

(** A queue of capacity 0 that drops the oldest value holds one value. *)
Theorem C43_capacity_zero_refuted : exists (h : list (qact nat nat)) p q,
  contract false false (pushed h) /\ nq_run (nq_new nat nat 0 DropOldest) h = Some (p, q) /\
  values (nq_queue q) = [1].
Proof. exists [QPush (Nxt 1)], [], (mkNQ [Nxt 1] None 2%N 0 DropOldest). vm_compute. intuition. Qed.
Print Assumptions C43_capacity_zero_refuted.

(** A value pushed after the completion of a full queue drops the completion (the index of the
    oldest value is looked up from the back, notification_queue.rs:104-111), and the queue then
    holds more values than its capacity. *)
Theorem C43_dropped_completion_refuted : exists (h : list (qact nat nat)) p q,
  In Cmp (pushed h) /\ nq_run (nq_new nat nat 1 DropOldest) h = Some (p, q) /\
  nq_queue q = [Nxt 1; Nxt 2].
Proof.
  exists (map (@QPush nat nat) [Nxt 1; Cmp; Nxt 2]), [], (mkNQ [Nxt 1; Nxt 2] None 2%N 1 DropOldest).
  vm_compute. intuition.
Qed.
Print Assumptions C43_dropped_completion_refuted.

(** Popping after an error: the flags are asked to become primed again, which panics. *)
Theorem C43_pop_after_error_refuted : exists h : list (qact nat nat),
  contract false false (pushed h) /\ nq_run (nq_new nat nat 2 DropOldest) h = None.
Proof. exists (map (@QPush nat nat) [Nxt 1; Nxt 2; Err 0] ++ [QPop]). vm_compute. intuition. Qed.
Print Assumptions C43_pop_after_error_refuted.

(** *** C44: [apply_changes fresh h = Some s]: the flags of a new state are [s] after the changes
    [h] (notifications, and [Ensure], an unsubscription that need not be the first), without
    the panic of a debug assertion. *)
Theorem C44_flags : forall A E (h : list (change A E)) s, apply_changes fresh h = Some s ->
  (is_waiting s = true <-> h = []) /\
  (is_primed s = true <-> some_of (@valued A E) h) /\
  (is_completed s = true <-> some_of (@completing A E) h) /\
  (is_errored s = true <-> some_of (@failing A E) h) /\
  (is_unsubscribed s = true <-> some_of (@unsubscribing A E) h) /\
  (is_closed s = true <-> some_of (fun c => completing c \/ failing c \/ unsubscribing c) h) /\
  ~ (is_completed s = true /\ is_errored s = true).
Proof. exact @state_describes. Qed.
Print Assumptions C44_flags.

Theorem C44_compound : forall A E (h : list (change A E)) s, apply_changes fresh h = Some s ->
  (is_finished s = true <-> some_of (fun c => completing c \/ failing c) h) /\
  (is_completed_but_not_primed s = true <-> some_of (@completing A E) h /\ ~ some_of (@valued A E) h) /\
  (is_closed_but_primed s = true <-> is_closed s = true /\ some_of (@valued A E) h) /\
  (is_closed_but_not_primed s = true <-> is_closed s = true /\ ~ some_of (@valued A E) h) /\
  (is_closed_but_not_completed s = true <-> is_closed s = true /\ ~ some_of (@completing A E) h) /\
  (is_closed_but_not_errored s = true <-> is_closed s = true /\ ~ some_of (@failing A E) h).
Proof. exact @state_compound. Qed.
Print Assumptions C44_compound.

(** A notification matches the state if one of its kind was among the changes. *)
Theorem C44_matches : forall A E (h : list (change A E)) s (n : ncall A E), apply_changes fresh h = Some s ->
  (notification_matches_state s n = true <->
   some_of (match n with Nxt _ => @valued A E | Err _ => @failing A E | Cmp => @completing A E | Uns => @unsubscribing A E end) h).
Proof. exact @state_matches. Qed.
Print Assumptions C44_matches.

(** The guards accept exactly the histories in which nothing but unsubscriptions follows a
    closing notification, and no plain unsubscription an unsubscription. *)
Theorem C44_guards : forall A E (h : list (change A E)),
  (exists s, apply_changes fresh h = Some s) <-> accepted false false h.
Proof. exact @guards. Qed.
Print Assumptions C44_guards.

(** [update_with_notification_would_be_invalid] says exactly when it would panic. *)
Theorem C44_predicted : forall A E (s : N) (n : ncall A E),
  update_would_be_invalid s n = true <-> update_with_notification s n = None.
Proof. exact @predicted. Qed.
Print Assumptions C44_predicted.

Example C44_example : exists s,
  apply_changes fresh [Upd (@Nxt nat nat 1); Upd Cmp; Upd Uns; Ensure] = Some s /\
  is_completed s = true /\ is_primed s = true /\ is_errored s = false /\
  update_would_be_invalid s (@Uns nat nat) = true.
Proof. eexists. split; [reflexivity|]. vm_compute. auto. Qed.

(** *** C45: the conversions between the four notification types lose nothing: each fallible
    conversion succeeds with [x] exactly on what [x] converts back to. *)
Theorem C45_lossless : forall A E,
  (forall (n : ncall A E) o, observer_of_subscriber n = Some o <-> n = subscriber_of_observer o) /\
  (forall (n : ncall A E) t, terminal_of_subscriber n = Some t <-> n = subscriber_of_terminal A t) /\
  (forall (n : ncall A E) s, subscription_of_subscriber n = Some s <-> n = subscriber_of_subscription A E s) /\
  (forall (n : notif A E) t, terminal_of_observer n = Some t <-> n = terminal_to_observer A t).
Proof.
  exact (fun A E => conj (@subscriber_observer A E) (conj (@subscriber_terminal A E)
    (conj (@subscriber_subscription A E) (@observer_terminal A E)))).
Qed.
Print Assumptions C45_lossless.

Theorem C45_cover : forall A E (n : ncall A E),
  (observer_of_subscriber n = None <-> n = Uns) /\
  (terminal_of_subscriber n = None <-> is_terminal n = false) /\
  (subscription_of_subscriber n = None <-> n <> Uns) /\
  (is_closing n = false <-> exists a, n = Nxt a) /\
  (terminal_of_subscriber n =
   match observer_of_subscriber n with Some o => terminal_of_observer o | None => None end).
Proof. exact @conversions_cover. Qed.
Print Assumptions C45_cover.

(** Turning any calls into notifications and pushing those into any subscriber [d] is the same
    as making the calls on [d]. *)
Theorem C45_replay : forall A E Y (d : methods A E Y) (calls : list (ncall A E)) (y : Y),
  fold_left (fun z n => push d n z) (told (recorder A E) calls []) y = told d calls y.
Proof. exact @replay. Qed.
Print Assumptions C45_replay.

(** Pushing a notification of one of the smaller types is pushing what it converts to. *)
Theorem C45_push : forall A E Y (d : methods A E Y) y,
  (forall o, push_observer d o y = push d (subscriber_of_observer o) y) /\
  (forall t, push_terminal d t y = push d (subscriber_of_terminal A t) y) /\
  (forall t, push_terminal d t y = push_observer d (terminal_to_observer A t) y) /\
  (forall s, push_subscription d s y = push d (subscriber_of_subscription A E s) y).
Proof. exact @push_agree. Qed.
Print Assumptions C45_push.

Example C45_example :
  let d := mkMethods (fun a y => a + y) (fun e y => y) (fun y => y * 2) (fun y => y * 3) : methods nat nat nat in
  fold_left (fun z n => push d n z) (told (recorder nat nat) [Nxt 3; Nxt 4; Cmp; Uns] []) 1 = 48 /\
  observer_of_subscriber (@Uns nat nat) = None /\ terminal_of_subscriber (@Err nat nat 3) = Some (TError 3).
Proof. vm_compute. auto. Qed.
