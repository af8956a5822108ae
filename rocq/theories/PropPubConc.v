(** Property C69: a publish subject used by several threads.

    [run shuts ts (start progs)] is the state after the steps [ts], each a thread and a choice (of who
    in the table is told next), in which thread [t] carries out the operations [nth t progs []] one
    after the other: push a value, error, complete, unsubscribe, subscribe destination [s], or drop or
    unsubscribe the subscription of [s]. [shuts s told] says that [s] closes itself after being told
    that. A value is told together with the number of the thread that pushed it; [vals t l] are those of
    thread [t] among the calls [l], [valn t q] those in the queue, [pushes p] those in a program, and
    [valk c] those in what a thread has yet to do. [v_had w s] says that the subscription of [s] was
    returned, [v_left w s] that it was dropped or unsubscribed. [idle w] means that nobody is in the
    middle of anything, [usable w] that the subject has not ended and its table was not poisoned.
    [v_q w] is the queue of deferred notifications. *)
From Verif Require Import Base SubscrModel PubConcModel PubConcSpec PubConcMain PubConcBefore PubConcClosed.
Set Implicit Arguments.

Notation shutting V E := (nat -> list (ncall (item V) E) -> bool).
Definition never : shutting nat nat := fun _ _ => false.
Definition after_one : shutting nat nat := fun s l => (s =? 0) && (length l =? 1).
(** Runs of steps of the threads, told in the order of the table. *)
Definition go (p : list (list (op nat nat))) (ts : list (nat * nat)) :=
  run never (flat_map (fun tn => repeat (fst tn, 0) (snd tn)) ts) (start p).
Definition told (w : st nat nat) (s : nat) := d_told (v_dest w s).
Definition shut (w : st nat nat) (s : nat) := d_closed (v_dest w s).

(** There is one order in which everything is told. Everybody hears a contiguous part of it, after
    which it may be unsubscribed, or nothing but the end that came before. Who is still open has heard
    all to the last, when nobody is telling. Of what a thread pushes nothing is told twice or out of
    order; and at rest, all was told that is not in the queue. *)
Theorem C69_one_order : forall V E (shuts : shutting V E) progs ts, let w := run shuts ts (start progs) in
  exists G,
  (forall s, let d := v_dest w s in
    (exists c, ends c = true /\ d_told d = [c] /\ d_closed d = true) \/
    exists x G1 G2 e, G = G1 ++ x ++ G2 /\ d_told d = x ++ e /\ (e = [] \/ (e = [Uns] /\ d_closed d = true)) /\
      (d_closed d = false -> v_lock w = Free -> x = [] \/ G2 = [])) /\
  (forall t, sub (vals t G) (pushes (nth t progs []))) /\
  (idle w -> usable w -> forall t, vals t G ++ valn t (v_q w) = pushes (nth t progs [])).
Proof. exact one_order. Qed.
Print Assumptions C69_one_order.

(** Thread 1 pushes 2 while thread 0 is telling 1; destination 1 arrives meanwhile. *)
Example C69_one_order_ex :
  let w := go [[OSub 0; ONext 1]; [ONext 2]; [OSub 1; ONext 3]] [(0, 15); (2, 7); (1, 6); (0, 30); (2, 30); (1, 30)] in
  (told w 0, told w 1, v_q w, v_lock w, v_thr w) =
  ([Nxt (0, 1); Nxt (1, 2); Nxt (2, 3)], [Nxt (1, 2); Nxt (2, 3)], [], Free, [[]; []; []]).
Proof. vm_compute. reflexivity. Qed.
Example C69_one_order_shuts :
  let w := run after_one (map (fun t => (t, 1)) (repeat 0 40 ++ repeat 1 40)) (start [[OSub 0; OSub 1]; [ONext 1; ONext 2]]) in
  (v_dest w 0, v_dest w 1) = (mkD [Nxt (1, 1)] true, mkD [Nxt (1, 1); Nxt (1, 2)] false).
Proof. vm_compute. reflexivity. Qed.

(** Everybody is told values and then at most one end; it is closed by that, or has closed itself. *)
Theorem C69_grammar : forall V E (shuts : shutting V E) progs ts s,
  proper (shuts s) (v_dest (run shuts ts (start progs)) s).
Proof. exact well_formed. Qed.
Print Assumptions C69_grammar.

Example C69_grammar_ex :
  let w := go [[OSub 0; ONext 1; OCmp]; [ONext 2; OErr 5]] [(0, 15); (1, 6); (0, 60); (1, 60)] in
  (told w 0, shut w 0, told w 1, shut w 1) = ([Nxt (0, 1); Nxt (1, 2); Cmp], true, [], false).
Proof. vm_compute. reflexivity. Qed.

(** Who has its subscription hears all that is pushed from then on, unless that stays in the queue. *)
Theorem C69_hears : forall V E (shuts : shutting V E) progs ts1 ts2 s,
  let w1 := run shuts ts1 (start progs) in let w2 := run shuts ts2 w1 in
  v_had w1 s = true -> idle w2 -> usable w2 -> v_q w2 = [] -> d_closed (v_dest w2 s) = false ->
  forall t, exists x, vals t (d_told (v_dest w2 s)) = x ++ valk (nth t (v_thr w1) []).
Proof. exact hears_all. Qed.
Print Assumptions C69_hears.

(** Destination 0 has its subscription while thread 1 is about to push 2 and 3. *)
Example C69_hears_ex :
  let p := [[OSub 0]; [ONext 1; ONext 2; ONext 3]] in
  let w1 := go p [(0, 4); (1, 9); (0, 20)] in
  let w2 := go p [(0, 4); (1, 9); (0, 20); (1, 40)] in
  (v_had w1 0, valk (nth 1 (v_thr w1) []), v_q w2, told w2 0, shut w2 0, v_lock w2, v_thr w2, is_closed w2) =
  (true, [2; 3], [], [Nxt (1, 2); Nxt (1, 3)], false, Free, [[]; []], false).
Proof. vm_compute. reflexivity. Qed.

(** Who subscribes hears nothing of what had been told or deferred before. *)
Theorem C69_not_before : forall V E (shuts : shutting V E) progs ts1 ts2 s,
  let w1 := run shuts ts1 (start progs) in let w2 := run shuts ts2 w1 in
  v_used w1 s = false -> forall t, sub (vals t (d_told (v_dest w2 s))) (pending t w1).
Proof. exact not_before. Qed.
Print Assumptions C69_not_before.

(** Destination 1 begins to subscribe when 1 was told and 2 was deferred; it hears 3. The other one
    begins before thread 0 tells the value it has in hand, and hears it. *)
Example C69_not_before_ex :
  let p := [[OSub 0; ONext 1]; [ONext 2; ONext 3]; [OSub 1]] in
  let w1 := go p [(0, 15); (1, 5)] in
  let w2 := go p [(0, 15); (1, 5); (2, 20); (0, 20); (2, 20); (1, 30)] in
  (v_used w1 1, valn 1 (v_q w1), pending 0 w1, pending 1 w1, told w2 1) =
  (false, [2], [], [3], [Nxt (1, 3)]).
Proof. vm_compute. reflexivity. Qed.
Example C69_not_before_hand :
  let p := [[OSub 0; ONext 1]; [OSub 1]] in
  let w1 := go p [(0, 12)] in
  let w2 := go p [(0, 12); (1, 6); (0, 20); (1, 20)] in
  (v_used w1 1, pending 0 w1, told w2 0, told w2 1) = (false, [1], [Nxt (0, 1)], [Nxt (0, 1)]).
Proof. vm_compute. reflexivity. Qed.

(** Once the subject is closed, nothing is heard of a push that has not begun. *)
Theorem C69_closed : forall V E (shuts : shutting V E) progs ts1 ts2 s,
  let w1 := run shuts ts1 (start progs) in let w2 := run shuts ts2 w1 in
  is_closed w1 = true -> forall t, exists p,
    pushes (nth t progs []) = p ++ unbegun (nth t (v_thr w1) []) /\ sub (vals t (d_told (v_dest w2 s))) p.
Proof. exact closed_for_good. Qed.
Print Assumptions C69_closed.

(** Thread 0 has set the subject completed but not told that yet, when thread 1, which has pushed 1,
    begins to push 2. *)
Example C69_closed_ex :
  let p := [[OSub 0; OCmp]; [ONext 1; ONext 2]] in
  let w1 := go p [(0, 12); (1, 5); (0, 3)] in
  let w2 := go p [(0, 12); (1, 5); (0, 3); (1, 30); (0, 30)] in
  (is_closed w1, told w1 0, unbegun (nth 1 (v_thr w1) []), told w2 0) =
  (true, [], [2], [Nxt (1, 1); Cmp]).
Proof. vm_compute. reflexivity. Qed.

(** Who leaves is unsubscribed, unless that stays in the queue. *)
Theorem C69_leaves : forall V E (shuts : shutting V E) progs ts s, let w := run shuts ts (start progs) in
  v_left w s = true -> idle w -> usable w -> v_q w = [] -> d_closed (v_dest w s) = true.
Proof. exact leaves. Qed.
Print Assumptions C69_leaves.

Example C69_leaves_ex :
  let w := go [[OSub 0; ONext 1]; [OLeave 0]] [(0, 15); (1, 20); (0, 30)] in
  (told w 0, shut w 0, v_left w 0, v_q w, v_lock w, v_thr w) = ([Nxt (0, 1); Uns], true, true, [], Free, [[]; []]).
Proof. vm_compute. reflexivity. Qed.

(** Who has its subscription when the subject is still open is closed when the subject has ended,
    unless that stays in the queue. *)
Theorem C69_ended : forall V E (shuts : shutting V E) progs ts1 ts2 s,
  let w1 := run shuts ts1 (start progs) in let w2 := run shuts ts2 w1 in
  v_had w1 s = true -> is_closed w1 = false -> idle w2 -> is_closed w2 = true -> v_q w2 = [] ->
  d_closed (v_dest w2 s) = true.
Proof. exact ended. Qed.
Print Assumptions C69_ended.

(** The completion is deferred by thread 1 while thread 0 is telling 1. *)
Example C69_ended_ex :
  let p := [[OSub 0; ONext 1]; [OCmp]] in
  let w1 := go p [(0, 15)] in let w2 := go p [(0, 15); (1, 10); (0, 40)] in
  (v_had w1 0, is_closed w1, told w2 0, shut w2 0, is_closed w2, v_lock w2, v_q w2, v_thr w2) =
  (true, false, [Nxt (0, 1); Cmp], true, true, Free, [], [[]; []]).
Proof. vm_compute. reflexivity. Qed.

(** Ten operations in all cannot make the queue panic. *)
Theorem C69_few : forall V E (shuts : shutting V E) progs ts, length (concat progs) <= 10 ->
  v_lock (run shuts ts (start progs)) <> Poisoned.
Proof. exact few. Qed.
Print Assumptions C69_few.

(** Ten operations, nine of which are deferred while the first is at its queue. *)
Example C69_few_ex :
  let p := [[ONext 0]; repeat (ONext 1) 9] in
  let w := go p ((0, 3) :: concat (repeat [(1, 6); (0, 5)] 9)) in
  (length (concat p), v_lock w) = (10, Held 0 [IQueue _ _ 9] (Some (NCall (Nxt (0, 0))))).
Proof. vm_compute. reflexivity. Qed.

(** With eleven it can: another thread pushes a value each time the queue was emptied. *)
Theorem C69_panic_refuted : exists progs ts, length (concat progs) = 11 /\ v_lock (go progs ts) = Poisoned.
Proof.
  exists [[ONext 0]; repeat (ONext 1) 10], ((0, 3) :: concat (repeat [(1, 6); (0, 5)] 10) ++ [(0, 1)]).
  vm_compute. split; reflexivity.
Qed.
Print Assumptions C69_panic_refuted.
(** The table is poisoned for ever: the subscriber hears nothing any more, and the subject is open. *)
Example C69_panic_after :
  let p := [[OSub 0; ONext 0]; repeat (ONext 1) 10; [ONext 7; OLeave 0]] in
  let w := go p ((0, 13) :: concat (repeat [(1, 6); (0, 6)] 10) ++ [(0, 9); (1, 9); (2, 20)]) in
  (v_lock w, is_closed w, shut w 0, v_thr w, vals 2 (told w 0), v_q w) =
  (Poisoned, false, false, [[]; []; []], [], [NCall (Nxt (2, 7)); NOff _ _ 0]).
Proof. vm_compute. reflexivity. Qed.

(** A pushed value can stay in the queue when all have returned. One thread has emptied the queue and
    not yet released the table; another finds it locked, defers its value, finds it locked again, and
    returns. Both threads only push, and the subscriber stays subscribed. *)
Theorem C69_pending_refuted : exists progs ts, let w := go progs ts in
  progs = [[OSub 0; ONext 1]; [ONext 2; ONext 3]] /\
  v_lock w = Free /\ v_thr w = [[]; []] /\ is_closed w = false /\ shut w 0 = false /\
  told w 0 = [Nxt (0, 1); Nxt (1, 2)] /\ v_q w = [NCall (Nxt (1, 3))].
Proof.
  exists [[OSub 0; ONext 1]; [ONext 2; ONext 3]], [(0, 15); (1, 6); (0, 12); (1, 6); (0, 1)]. vm_compute. repeat split; reflexivity.
Qed.
Print Assumptions C69_pending_refuted.

(** So can the leaving of a subscriber, which stays open: two threads leave at once, and neither looks
    at the queue afterwards. *)
Theorem C69_leave_refuted : exists progs ts, let w := go progs ts in
  v_lock w = Free /\ v_thr w = [[]; []] /\ is_closed w = false /\
  v_left w 1 = true /\ shut w 1 = false /\ told w 1 = [] /\ v_q w = [NOff _ _ 1].
Proof.
  exists [[OSub 0; OSub 1; OLeave 0]; [OLeave 1]], [(0, 24); (1, 4); (0, 4)]. vm_compute. repeat split; reflexivity.
Qed.
Print Assumptions C69_leave_refuted.

(** So can a completion: the subject is complete, and a subscriber that had its subscription before
    that is not told. *)
Theorem C69_end_refuted : exists progs ts1 ts2, let w1 := go progs ts1 in let w := go progs (ts1 ++ ts2) in
  v_had w1 0 = true /\ is_closed w1 = false /\ v_lock w = Free /\ v_thr w = [[]; []] /\
  is_closed w = true /\ shut w 0 = false /\ told w 0 = [] /\ v_q w = [NCall Cmp].
Proof.
  exists [[OSub 0; OSub 1; OLeave 1]; [OCmp]], [(0, 24)], [(1, 7); (0, 4)]. vm_compute. repeat split; reflexivity.
Qed.
Print Assumptions C69_end_refuted.

(** Who subscribes while another thread completes can come too late for the completion and too early
    for the end that is told to late subscribers. It stays open, with nothing pending. *)
Theorem C69_late_refuted : exists progs ts, let w := go progs ts in
  v_lock w = Free /\ v_thr w = [[]; []] /\ v_q w = [] /\ v_had w 0 = true /\
  is_closed w = true /\ shut w 0 = false /\ told w 0 = [].
Proof. exists [[OSub 0]; [OCmp]], [(0, 4); (1, 12); (0, 12)]. vm_compute. repeat split; reflexivity. Qed.
Print Assumptions C69_late_refuted.
(** Or it is only unsubscribed, and not told of the completion. *)
Example C69_late_kind :
  let w := go [[OSub 0]; [OCmp]] [(0, 3); (1, 12); (0, 12)] in (told w 0, v_cmp w, v_thr w) = ([Uns], true, [[]; []]).
Proof. vm_compute. reflexivity. Qed.

(** When two threads raise an error, those subscribed may hear one and those who come later the other. *)
Theorem C69_errors_refuted : exists progs ts, let w := go progs ts in
  v_lock w = Free /\ v_thr w = [[]; []] /\ v_q w = [] /\ told w 0 = [Err 2] /\ told w 1 = [Err 1].
Proof.
  exists [[OSub 0; OErr 1; OSub 1]; [OErr 2]], [(0, 12); (1, 3); (0, 1); (1, 12); (0, 20)]. vm_compute. repeat split; reflexivity.
Qed.
Print Assumptions C69_errors_refuted.

(** When two threads complete, a debug assertion can fail. *)
Theorem C69_debug_refuted : exists progs ts, progs = [[OCmp]; [OCmp]] /\ v_debug (go progs ts) = true.
Proof. exists [[OCmp]; [OCmp]], [(0, 2); (1, 2); (0, 12); (1, 12)]. vm_compute. auto. Qed.
Print Assumptions C69_debug_refuted.
