(** Properties C28 to C33, C48 and C49: operators and observables on a scheduler.

    [syss T down user fuel (start T depth) h = Fine m]: from a new executor with the operator
    [T] not yet subscribed, the history [h] (commands from outside, ticks by a delta, ticks to
    a time) led to [m] without the scheduler's depth panic and without running out of fuel.
    [down] says what the destination does when told something (it may close itself and use
    the scheduler, depending on all it was told), [user] what the other tasks on the
    scheduler do (anything, including calls to the operator, depending on all that happened).
    [w_tr (m_world m)] is everything that happened in order (TimeSpec.v and [tev]):
    subscription [XSub], begin [XTick t] and end [XEnd] of ticks, calls by the source
    [XUp c], and what the destination was told [XOut c]. *)
From Coq Require Import ZArith Permutation.
From Verif Require Import Base SubscrModel SchedModel TimeModel TimeSpec TimeDelay TimeObserve TimeDebounce
  TimeFallback TimeTimer TimeOnTick TimeInterval TimeThrottle TimeMore TimeFacts.
Set Implicit Arguments.

Notation destination B E X := (list (ncall B E) -> bool * list (req X)).
Notation others A B E X := (X -> nat -> list (tev A B E) -> X * bool * list (cmd A E X)).

(** Used in the examples: a destination that never closes itself, no other tasks, and tasks
    that push a value ([0] completes). *)
Definition down0 {B} : destination B nat nat := fun _ => (false, []).
Definition user0 {A B} : others A B nat nat := fun x _ _ => (x, true, []).
Definition pusher : others nat nat nat nat :=
  fun x _ _ => (x, true, match x with 0 => [CUp Cmp] | _ => [CUp (Nxt x)] end).
Definition n (k : nat) : cmd nat nat nat := CUp (Nxt k).
Definition trace {A B S O} (T : timed A B nat S O nat) user h : list (tev A B nat) :=
  match syss T down0 user 100 (start T 10) h with Fine m => w_tr (m_world m) | _ => [] end.

(** *** C28: delay. [always (delayed down d)]: every value told is the next one pushed, not
    before its time plus [d], and in a tick; after every tick all values that are due were
    told; completion only after all values. Errors are forwarded at once; and if the source
    completed and the destination is not told, there are values pending. *)
Theorem C28_delay : forall A E X (down : destination A E X) (user : others A A E X) d fuel depth h m,
  syss (delay A E X d) down user fuel (start (delay A E X d) depth) h = Fine m ->
  let tr := w_tr (m_world m) in
  always (delayed down d) tr /\ answered down (@errors A E) tr /\
  (open down tr -> In (XUp Cmp) tr -> length (values tr) < length (pushes tr)).
Proof. exact @delay_ok. Qed.
Print Assumptions C28_delay.

(** So the values told are at any time the first of the values pushed. *)
Theorem C28_same_values : forall A E X d (down : destination A E X) (user : others A A E X) fuel depth h m,
  syss (delay A E X d) down user fuel (start (delay A E X d) depth) h = Fine m ->
  exists rest, map snd (pushes (w_tr (m_world m))) = values (w_tr (m_world m)) ++ rest.
Proof. exact @delay_in_order. Qed.
Print Assumptions C28_same_values.

Example C28_example :
  let h := [SDo [CSub; n 1]; STick 2; SDo [n 2; n 3]; STick 2; SDo [n 4; CUp Cmp]; STick 1; STick 5] in
  pushes (trace (delay nat nat nat 3) user0 h) = [(0, 1); (2, 2); (2, 3); (4, 4)] /\
  handed (trace (delay nat nat nat 3) user0 h) = [(4, 1); (5, 2); (5, 3); (10, 4)] /\
  outs (trace (delay nat nat nat 3) user0 h) = [Nxt 1; Nxt 2; Nxt 3; Nxt 4; Cmp] /\
  outs (trace (delay nat nat nat 3) user0 [SDo [CSub; n 1]; STick 3; SDo [n 2; CUp (Err 9)]; STick 9]) = [Nxt 1; Err 9].
Proof. vm_compute. repeat split. Qed.

(** *** C29: debounce_time, if values are not pushed by tasks that run on the same scheduler.
    A value told is the last one pushed, [d] ago or longer, and not told before; after every
    tick the last value, if due, was told; completion only when no value is pending, and if
    the destination is not told of the completion, one is. *)
Theorem C29_debounce_partial : forall A E X (down : destination A E X) (user : others A A E X) d,
  pushless user -> forall fuel depth h m,
  syss (debounce A E X d) down user fuel (start (debounce A E X d) depth) h = Fine m ->
  let tr := w_tr (m_world m) in
  always (debounced down d) tr /\ answered down (@errors A E) tr /\
  (open down tr -> In (XUp Cmp) tr -> pending tr <> None).
Proof. exact @debounce_ok. Qed.
Print Assumptions C29_debounce_partial.

(** With such tasks it is false: 2 is pushed in the tick in which 1 is delivered, and a
    completion before 2 is due loses it. *)
Theorem C29_flush_refuted : exists (user : others nat nat nat nat) h m,
  syss (debounce nat nat nat 3) down0 user 100 (start (debounce nat nat nat 3) 10) h = Fine m /\
  let tr := w_tr (m_world m) in
  pushes tr = [(0, 1); (3, 2)] /\ outs tr = [Nxt 1; Cmp].
Proof.
  exists pusher, [SDo [CReq (QSched 0 (KDelayed 3) 2); CSub; n 1]; STick 3; SDo [CUp Cmp]; STick 5; STick 5].
  eexists. vm_compute. repeat split.
Qed.
Print Assumptions C29_flush_refuted.

Example C29_example :
  let h := [SDo [CSub; n 1]; STick 2; SDo [n 2]; STick 2; STick 2; SDo [n 3]; STick 1; SDo [n 4; CUp Cmp]; STick 1; STick 7] in
  pushless (@user0 nat nat) /\
  pushes (trace (debounce nat nat nat 3) user0 h) = [(0, 1); (2, 2); (6, 3); (7, 4)] /\
  handed (trace (debounce nat nat nat 3) user0 h) = [(6, 2); (15, 4)] /\
  outs (trace (debounce nat nat nat 3) user0 h) = [Nxt 2; Nxt 4; Cmp].
Proof. split; [intros x t l a []|]. vm_compute. repeat split. Qed.

(** *** C30: throttle_time. What does hold: with a leading edge the first value is told at
    once; a value is either the one just pushed (with a leading edge; outside of ticks at most
    one of them between two ticks) or one pushed before, in a tick (with a trailing edge);
    nothing is told more often than it was pushed; errors are forwarded at once. Missing: the
    rate, the fate of the trailing value, and the order, which are false, see below. *)
Theorem C30_throttle_partial : forall A E X d leading trailing (down : destination A E X) (user : others A A E X) fuel depth h m,
  syss (@throttle A E X d leading trailing) down user fuel (start (@throttle A E X d leading trailing) depth) h = Fine m ->
  let tr := w_tr (m_world m) in
  always (throttled down d leading trailing) tr /\ answered down (@throttle_answers A E leading) tr /\
  exists rest, Permutation (values tr ++ rest) (map snd (pushes tr)).
Proof. exact @throttle_ok. Qed.
Print Assumptions C30_throttle_partial.

Notation throttle_run d leading trailing h m :=
  (syss (@throttle nat nat nat d leading trailing) down0 user0 100 (start (@throttle nat nat nat d leading trailing) 10) h = Fine m).

(** Two values closer than the window: after an idle time the window starts in the past. *)
Theorem C30_rate_refuted : exists h m, throttle_run 5 true false h m /\
  handed (w_tr (m_world m)) = [(100, 1); (101, 2)].
Proof. exists [SDo [CSub]; STickTo 100; SDo [n 1]; STick 1; SDo [n 2]]. eexists. vm_compute. repeat split. Qed.
Print Assumptions C30_rate_refuted.

(** A trailing value that is never told, with the most regular of ticks. *)
Theorem C30_trailing_refuted : exists h m, throttle_run 3 true true h m /\
  pushes (w_tr (m_world m)) = [(0, 1); (10, 2); (10, 3)] /\
  handed (w_tr (m_world m)) = [(0, 1); (10, 2)] /\ clock (w_tr (m_world m)) = 30.
Proof.
  exists ([SDo [CSub; n 1]] ++ repeat (STick 1) 10 ++ [SDo [n 2; n 3]] ++ repeat (STick 1) 20).
  eexists. vm_compute. repeat split.
Qed.
Print Assumptions C30_trailing_refuted.

(** A tick that steps over the end of the window loses the last value before a completion. *)
Theorem C30_last_value_refuted : exists h m, throttle_run 5 true true h m /\
  pushes (w_tr (m_world m)) = [(0, 1); (0, 2)] /\ outs (w_tr (m_world m)) = [Nxt 1; Cmp].
Proof. exists [SDo [CSub; n 1; n 2; CUp Cmp]; STick 6; STick 5]. eexists. vm_compute. repeat split. Qed.
Print Assumptions C30_last_value_refuted.

(** Without a completion it is told after a later value. *)
Theorem C30_order_refuted : exists h m, throttle_run 5 true true h m /\
  map snd (pushes (w_tr (m_world m))) = [1; 2; 3] /\ values (w_tr (m_world m)) = [1; 3; 2].
Proof. exists [SDo [CSub; n 1; n 2]; STick 6; SDo [n 3]; STick 5]. eexists. vm_compute. repeat split. Qed.
Print Assumptions C30_order_refuted.

Example C30_example :
  let h := [SDo [CSub; n 1; n 2]; STick 1; SDo [n 3]; STick 4; STick 1; SDo [n 4]; STick 4; STick 5; SDo [CUp Cmp]] in
  handed (trace (throttle nat nat nat 5 true true) user0 h) = [(0, 1); (5, 3); (6, 4)] /\
  outs (trace (throttle nat nat nat 5 true true) user0 h) = [Nxt 1; Nxt 3; Nxt 4; Cmp] /\
  handed (trace (throttle nat nat nat 5 true false) user0 h) = [(0, 1); (6, 4)].
Proof. vm_compute. repeat split. Qed.

(** *** C31: observe_on. Every value told is the next one pushed, in a tick; after every tick
    all were told; completion after all values. *)
Theorem C31_observe_on : forall A E X (down : destination A E X) (user : others A A E X) fuel depth h m,
  syss (observe_on A E X) down user fuel (start (observe_on A E X) depth) h = Fine m ->
  let tr := w_tr (m_world m) in
  always (observed down) tr /\ answered down (@errors A E) tr /\
  (open down tr -> In (XUp Cmp) tr -> length (values tr) < length (pushes tr)).
Proof. exact @observe_on_ok. Qed.
Print Assumptions C31_observe_on.

Theorem C31_same_values : forall A E X (down : destination A E X) (user : others A A E X) fuel depth h m,
  syss (observe_on A E X) down user fuel (start (observe_on A E X) depth) h = Fine m ->
  exists rest, map snd (pushes (w_tr (m_world m))) = values (w_tr (m_world m)) ++ rest.
Proof. exact @observe_in_order. Qed.
Print Assumptions C31_same_values.

(** Also for values pushed inside a tick by other tasks. *)
Example C31_example :
  let h := [SDo [CSub; n 1; n 2; CReq (QSched 0 (KDelayed 3) 7)]; STick 2; SDo [n 3]; STick 2; SDo [n 4; CUp Cmp]; STick 0] in
  handed (trace (observe_on nat nat nat) pusher h) = [(2, 1); (2, 2); (4, 3); (4, 7); (4, 4)] /\
  outs (trace (observe_on nat nat nat) pusher h) = [Nxt 1; Nxt 2; Nxt 3; Nxt 7; Nxt 4; Cmp].
Proof. vm_compute. repeat split. Qed.

(** *** C32: fallback_when_silent. In every tick exactly one value is told: the latest pushed
    since the one told before, or else the fallback. Terminals are forwarded at once.
    Missing: the last clause, which is false, see below. *)
Theorem C32_fallback_partial : forall A E X (fb : nat -> nat -> A) (down : destination A E X) (user : others A A E X) fuel depth h m,
  syss (fallback fb) down user fuel (start (fallback fb) depth) h = Fine m ->
  let tr := w_tr (m_world m) in
  always (fallen down fb) tr /\ answered down (@terminals A A E) tr.
Proof. exact @fallback_ok. Qed.
Print Assumptions C32_fallback_partial.

(** A value pushed before the completion is lost. *)
Theorem C32_last_value_refuted : exists h m,
  syss (fallback (fun _ _ => 0)) down0 user0 100 (start (fallback (fun _ _ => 0)) 10) h = Fine m /\
  pushes (w_tr (m_world m)) = [(1, 5)] /\ outs (w_tr (m_world m)) = [Nxt 0; Cmp].
Proof. exists [SDo [CSub]; STick 1; SDo [n 5; CUp Cmp]; STick 1]. eexists. vm_compute. repeat split. Qed.
Print Assumptions C32_last_value_refuted.

Example C32_example :
  let h := [SDo [CSub; n 1]; STick 1; STick 1; SDo [n 2; n 3]; STick 4; SDo [CUp Cmp]; STick 1] in
  outs (trace (fallback (fun t i => 100 + t)) user0 h) = [Nxt 1; Nxt 102; Nxt 3; Cmp].
Proof. vm_compute. repeat split. Qed.

(** *** C33: interval. The values are 0, 1, 2, …; each at the latest by the end of the tick in
    which its period ended ([at_intervals], [periods]: at most [cap] in a tick). *)
Theorem C33_interval : forall A E X d now cap, 0 < d -> forall (down : destination nat E X) (user : others A nat E X) fuel depth h m,
  syss (interval d now cap) down user fuel (start (interval d now cap) depth) h = Fine m ->
  let tr := w_tr (m_world m) in
  always (at_intervals down d now (if cap =? 0 then 1 else cap)) tr /\ answered down (@unsubscribes A nat E) tr.
Proof. exact @interval_ok. Qed.
Print Assumptions C33_interval.

Theorem C33_interval_counts : forall A E X d now cap (down : destination nat E X) (user : others A nat E X) fuel depth h m,
  0 < d -> syss (interval d now cap) down user fuel (start (interval d now cap) depth) h = Fine m ->
  values (w_tr (m_world m)) = seq 0 (length (values (w_tr (m_world m)))).
Proof. exact @interval_count. Qed.
Print Assumptions C33_interval_counts.

(** If no tick ever had more than [cap] periods, there is one for each period that passed. *)
Theorem C33_interval_floor : forall A E X d now cap (down : destination nat E X) (user : others A nat E X) fuel depth h m,
  0 < d -> syss (interval d now cap) down user fuel (start (interval d now cap) depth) h = Fine m ->
  forall p s, w_tr (m_world m) = p ++ XEnd :: s -> open down p ->
  (forall p0 t r s0, p = p0 ++ XTick t :: r -> since p0 = Some s0 -> t <= clock p0 + (if cap =? 0 then 1 else cap) * d) ->
  length (values p) = match since p with Some s0 => (if now then 1 else 0) + (clock p - s0) / d | None => 0 end.
Proof. exact @interval_floor. Qed.
Print Assumptions C33_interval_floor.

Theorem C33_timer : forall A E X d (down : destination unit E X) (user : others A unit E X) fuel depth h m,
  syss (timer d) down user fuel (start (timer d) depth) h = Fine m ->
  let tr := w_tr (m_world m) in
  always (timed_once down d) tr /\ answered down (@timer_answers A unit E) tr.
Proof. exact @timer_ok. Qed.
Print Assumptions C33_timer.

(** iterator_on_tick: the items in order, in every [n]-th tick; right after the last item
    completes, if that one is not told at the subscription. Missing: the completion for
    iterators without items, and with [start_on_subscribe] for those with one item: false. *)
Theorem C33_iterator_on_tick_partial : forall A B E X (item : nat -> option B) n now, 0 < n ->
  forall (down : destination B E X) (user : others A B E X) fuel depth h m,
  syss (on_tick item n now) down user fuel (start (on_tick item n now) depth) h = Fine m ->
  let tr := w_tr (m_world m) in
  always (on_ticks down item n now) tr /\ answered down (on_tick_answers item now) tr.
Proof. exact @on_tick_ok. Qed.
Print Assumptions C33_iterator_on_tick_partial.

Theorem C33_iterator_items : forall A B E X (item : nat -> option B) n now (down : destination B E X) (user : others A B E X) fuel depth h m,
  0 < n -> syss (on_tick item n now) down user fuel (start (on_tick item n now) depth) h = Fine m ->
  forall i b, nth_error (values (w_tr (m_world m))) i = Some b -> item i = Some b.
Proof. exact @on_tick_items. Qed.
Print Assumptions C33_iterator_items.

(** For an empty iterator nothing is ever told, in no run. *)
Theorem C33_iterator_empty_silent : forall A B E X (item : nat -> option B) n now (down : destination B E X) (user : others A B E X) fuel depth h m,
  0 < n -> syss (on_tick item n now) down user fuel (start (on_tick item n now) depth) h = Fine m ->
  item 0 = None -> forall c, In (XOut c) (w_tr (m_world m)) -> c = Uns.
Proof. exact @on_tick_empty. Qed.
Print Assumptions C33_iterator_empty_silent.

Theorem C33_iterator_empty_refuted : exists h m,
  let T := @on_tick nat nat nat nat (fun _ => None) 1 false in
  syss T down0 user0 100 (start T 10) h = Fine m /\
  ticks (w_tr (m_world m)) = 5 /\ outs (w_tr (m_world m)) = [].
Proof. exists (SDo [CSub] :: repeat (STick 1) 5). eexists. vm_compute. repeat split. Qed.
Print Assumptions C33_iterator_empty_refuted.

Theorem C33_iterator_one_refuted : exists h m,
  let T := @on_tick nat nat nat nat (fun i => match i with 0 => Some 7 | _ => None end) 1 true in
  syss T down0 user0 100 (start T 10) h = Fine m /\
  ticks (w_tr (m_world m)) = 5 /\ outs (w_tr (m_world m)) = [Nxt 7].
Proof. exists (SDo [CSub] :: repeat (STick 1) 5). eexists. vm_compute. repeat split. Qed.
Print Assumptions C33_iterator_one_refuted.

Example C33_example :
  handed (trace (@interval nat nat nat 3 true 2) user0 [STick 1; SDo [CSub]; STick 2; STick 2; STick 6; STick 9; STick 3]) =
    [(1, 0); (5, 1); (11, 2); (11, 3); (20, 4); (20, 5); (23, 6)] /\
  handed (trace (@timer nat nat nat 3) user0 [STick 1; SDo [CSub]; STick 2; STick 2; STick 6]) = [(5, tt)] /\
  outs (trace (@timer nat nat nat 3) user0 [STick 1; SDo [CSub]; STick 2; STick 2; STick 6]) = [Nxt tt; Cmp] /\
  handed (trace (@on_tick nat nat nat nat (fun i => if i <? 3 then Some i else None) 2 false) user0 (SDo [CSub] :: repeat (STick 1) 9)) =
    [(2, 0); (4, 1); (6, 2)] /\
  outs (trace (@on_tick nat nat nat nat (fun i => if i <? 3 then Some i else None) 2 false) user0 (SDo [CSub] :: repeat (STick 1) 9)) =
    [Nxt 0; Nxt 1; Nxt 2; Cmp].
Proof. vm_compute. repeat split. Qed.

(** *** C48: after an unsubscription nothing is told. [silenced tr]: no value in [tr] after
    [XUp Uns]. *)
Theorem C48_fallback_partial : forall A E X fb (down : destination A E X) (user : others A A E X) fuel depth h m,
  syss (fallback fb) down user fuel (start (fallback fb) depth) h = Fine m -> silenced (w_tr (m_world m)).
Proof. exact @fallback_silenced. Qed.
Print Assumptions C48_fallback_partial.

Theorem C48_timer_partial : forall A E X d (down : destination unit E X) (user : others A unit E X) fuel depth h m,
  syss (timer d) down user fuel (start (timer d) depth) h = Fine m -> silenced (w_tr (m_world m)).
Proof. exact @timer_silenced. Qed.
Print Assumptions C48_timer_partial.

Theorem C48_interval_partial : forall A E X d now cap (down : destination nat E X) (user : others A nat E X) fuel depth h m,
  0 < d -> syss (interval d now cap) down user fuel (start (interval d now cap) depth) h = Fine m -> silenced (w_tr (m_world m)).
Proof. exact @interval_silenced. Qed.
Print Assumptions C48_interval_partial.

Theorem C48_iterator_on_tick_partial : forall A B E X item n now (down : destination B E X) (user : others A B E X) fuel depth h m,
  0 < n -> syss (on_tick item n now) down user fuel (start (on_tick item n now) depth) h = Fine m -> silenced (w_tr (m_world m)).
Proof. exact @on_tick_silenced. Qed.
Print Assumptions C48_iterator_on_tick_partial.

(** Missing: delay, observe_on, debounce_time and throttle_time, where it is false. *)
Theorem C48_delay_refuted : exists h m,
  syss (delay nat nat nat 3) down0 user0 100 (start (delay nat nat nat 3) 10) h = Fine m /\
  exists p s, w_tr (m_world m) = p ++ XUp Uns :: s /\ In (XOut (Nxt 1)) s.
Proof. exists [SDo [CSub; n 1]; SDo [CUp Uns]; STick 3]. eexists. split; [vm_compute; reflexivity|].
  exists [XSub; XUp (Nxt 1)]. eexists. split; [reflexivity|]. cbn. auto. Qed.
Print Assumptions C48_delay_refuted.

Theorem C48_observe_on_refuted : exists h m,
  syss (observe_on nat nat nat) down0 user0 100 (start (observe_on nat nat nat) 10) h = Fine m /\
  exists p s, w_tr (m_world m) = p ++ XUp Uns :: s /\ In (XOut (Nxt 1)) s.
Proof. exists [SDo [CSub; n 1]; SDo [CUp Uns]; STick 3]. eexists. split; [vm_compute; reflexivity|].
  exists [XSub; XUp (Nxt 1)]. eexists. split; [reflexivity|]. cbn. auto. Qed.
Print Assumptions C48_observe_on_refuted.

Theorem C48_debounce_refuted : exists h m,
  syss (debounce nat nat nat 3) down0 user0 100 (start (debounce nat nat nat 3) 10) h = Fine m /\
  exists p s, w_tr (m_world m) = p ++ XUp Uns :: s /\ In (XOut (Nxt 1)) s.
Proof. exists [SDo [CSub; n 1]; SDo [CUp Uns]; STick 3]. eexists. split; [vm_compute; reflexivity|].
  exists [XSub; XUp (Nxt 1)]. eexists. split; [reflexivity|]. cbn. auto. Qed.
Print Assumptions C48_debounce_refuted.

Theorem C48_throttle_refuted : exists h m, throttle_run 3 true true h m /\
  exists p s, w_tr (m_world m) = p ++ XUp Uns :: s /\ In (XOut (Nxt 2)) s.
Proof. exists [SDo [CSub; n 1; n 2]; SDo [CUp Uns]; STick 3]. eexists. split; [vm_compute; reflexivity|].
  exists [XSub; XUp (Nxt 1); XOut (Nxt 1); XUp (Nxt 2)]. eexists. split; [reflexivity|]. cbn. auto. Qed.
Print Assumptions C48_throttle_refuted.

Example C48_example :
  trace (@interval nat nat nat 1 false 5) user0 [SDo [CSub]; STick 2; SDo [CUp Uns]; STick 3] =
  [XSub; XTick 2; XOut (Nxt 0); XOut (Nxt 1); XEnd; XUp Uns; XOut Uns; XTick 5; XEnd].
Proof. vm_compute. reflexivity. Qed.

(** *** C49: the closure of throttle_time finds its deadline set (throttle_time_subscriber.rs:93
    has an [expect]). True unless tasks on the same scheduler call the operator. *)
Theorem C49_no_panic_partial : forall A E X d leading trailing (down : destination A E X) (user : others A A E X),
  aloof user -> forall fuel depth h m,
  syss (@throttle A E X d leading trailing) down user fuel (start (@throttle A E X d leading trailing) depth) h = Fine m ->
  w_panic (m_world m) = false.
Proof. exact @throttle_calm. Qed.
Print Assumptions C49_no_panic_partial.

(** A task that completes the source in a tick before the operator's own task runs. *)
Theorem C49_panic_refuted : exists (user : others nat nat nat nat) h m,
  syss (@throttle nat nat nat 5 true true) down0 user 100 (start (@throttle nat nat nat 5 true true) 10) h = Fine m /\
  w_panic (m_world m) = true.
Proof.
  exists pusher, [SDo [CReq (QSched 0 (KDelayed 3) 0); CSub; n 1]; STick 3]. eexists. vm_compute. repeat split.
Qed.
Print Assumptions C49_panic_refuted.

Example C49_example : aloof (@user0 nat nat) /\
  match syss (throttle nat nat nat 5 true true) down0 user0 100 (start (throttle nat nat nat 5 true true) 10)
          [SDo [CSub; n 1]; STick 2; SDo [CUp Cmp]; STick 2; STick 9] with
  | Fine m => outs (w_tr (m_world m)) = [Nxt 1; Cmp] /\ w_panic (m_world m) = false
  | _ => False
  end.
Proof. split; [intros x t l c []|]. vm_compute. repeat split. Qed.
