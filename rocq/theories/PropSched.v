(** Properties C23 to C27: the ticking scheduler and its executor.

    [steps run fuel (boot depth g) h = Fine m]: from a new executor whose depth limit is
    [depth], the history [h] (requests made from outside, ticks by a delta, ticks to a
    time) led to [m] without panic and without running out of fuel. [run] says what the
    closures do: anything, to themselves, to a shared world, and any requests to the
    scheduler. [m_log m] is everything that happened: tasks scheduled ([ESched id cid kd],
    numbered in order), cancelled ([ECancel cid]), ticks of the executor ([ETick t]), of
    tasks ([EWork id]), closures run ([ERan]), tasks finished ([EDone id]). *)
From Verif Require Import Base SchedModel SchedSpec SchedProofs SchedExec SchedMore SchedTerm.
Set Implicit Arguments.

Notation closures K G := (K -> nat -> G -> K * bool * G * list (req K)).

(** Closures used in the examples: 0 goes on, 1 is done, 2 schedules a delayed task that
    is done at once, 3 cancels the tasks of owner 1, 4 goes on until it has been called
    three times, 7 is done and invokes task 5. The world counts the calls. *)
Definition demo : closures nat nat := fun k t g =>
  match k with
  | 0 => (0, false, S g, [])
  | 2 => (2, true, S g, [QSched 9 (KDelayed 3) 1])
  | 3 => (3, true, S g, [QCancel 1])
  | 4 => (5, false, S g, [])
  | 5 => (6, false, S g, [])
  | 7 => (7, true, S g, [QInvoke 5])
  | _ => (k, true, S g, [])
  end.
Definition demo_log (h : list (act nat nat)) : list ev :=
  match steps demo 100 (boot 10 0) h with Fine m => m_log m | _ => [] end.

(** *** C23: a task scheduled with a delay runs at most once, and not before it is due. *)
Theorem C23_at_most_once : forall K G (run : closures K G) fuel depth g h m id a cid d b,
  steps run fuel (boot depth g) h = Fine m ->
  m_log m = a ++ ESched id cid (KDelayed d) :: b ->
  runs_of id (m_log m) = [] \/ exists T, runs_of id (m_log m) = [T] /\ now_of a + d <= T.
Proof. exact @delayed_once. Qed.
Print Assumptions C23_at_most_once.

(** If it did not run before, a tick runs it exactly when its time is at least the due
    time. *)
Theorem C23_when_due : forall K G (run : closures K G) fuel depth g h m0 m x id a cid d b,
  steps run fuel (boot depth g) h = Fine m0 -> is_tick x -> step run fuel m0 x = Fine m ->
  m_log m0 = a ++ ESched id cid (KDelayed d) :: b -> ~ In (ECancel cid) b ->
  ran id (m_log m0) = 0 ->
  runs_of id (m_log m) = if now_of a + d <=? now_of (m_log m) then [now_of (m_log m)] else [].
Proof. exact @delayed_when. Qed.
Print Assumptions C23_when_due.

(** So after every tick it has run exactly if it is due: no tick at or after the due time
    goes by without running it (including the tick it was scheduled in). *)
Theorem C23_exactly_once : forall K G (run : closures K G) fuel depth g h m0 m x id a cid d b,
  steps run fuel (boot depth g) h = Fine m0 -> is_tick x -> step run fuel m0 x = Fine m ->
  m_log m = a ++ ESched id cid (KDelayed d) :: b -> ~ In (ECancel cid) b ->
  ran id (m_log m) = (if now_of a + d <=? now_of (m_log m) then 1 else 0).
Proof. exact @delayed_due. Qed.
Print Assumptions C23_exactly_once.

(** Once it is cancelled nothing happens to it, whatever is done next. *)
Theorem C23_cancelled : forall K G (run : closures K G) fuel depth g h m0 m x id a cid kd b,
  steps run fuel (boot depth g) h = Fine m0 -> step run fuel m0 x = Fine m ->
  m_log m0 = a ++ ESched id cid kd :: b -> In (ECancel cid) b ->
  runs_of id (m_log m) = runs_of id (m_log m0) /\ ticked id (m_log m) = ticked id (m_log m0).
Proof. exact @cancelled_never. Qed.
Print Assumptions C23_cancelled.

(** Immediate tasks run the first time they are ticked. *)
Theorem C23_immediate : forall K G (run : closures K G) fuel depth g h m id a cid b,
  steps run fuel (boot depth g) h = Fine m -> m_log m = a ++ ESched id cid KImmediate :: b ->
  ran id (m_log m) = match ticks_of id (m_log m) with [] => 0 | _ => 1 end.
Proof. exact @immediate_once. Qed.
Print Assumptions C23_immediate.

(** Scheduled at time 2 with delay 5 next to other work: due at 7, run by the tick to 9.
    Another one, scheduled by that tick's other task, is due at 12. *)
Example C23_example :
  let l := demo_log [HTick 2; HDo 0 [QSched 1 (KDelayed 5) 1; QSched 2 (KDelayed 6) 2; QSched 3 KContinuous 0];
                     HTick 4; HTick 3; HTick 2; HTick 2] in
  runs_of 0 l = [9] /\ runs_of 1 l = [9] /\ runs_of 3 l = [13] /\ runs_of 2 l = [6; 9; 11; 13] /\
  runs_of 0 (demo_log [HDo 0 [QSched 1 (KDelayed 5) 1; QSched 2 KImmediate 3]; HTick 4; HTick 4]) = [].
Proof. vm_compute. repeat split. Qed.

(** *** C24: how often a repeating task with a positive interval fires: for every tick it
    got, once per whole interval passed since its previous tick (counted from the time it
    was scheduled), once more at the first if it starts immediately, but at most [cap]
    times per tick ([cap] 0 means 1); a task that said it is done may have fired less. *)
Theorem C24_fires : forall K G (run : closures K G) fuel depth g h m id a cid i imm cap b,
  steps run fuel (boot depth g) h = Fine m ->
  m_log m = a ++ ESched id cid (KRepeating i imm cap) :: b -> 0 < i ->
  let f := fires i (Nat.max 1 cap) (now_of a) (now_of a) (if imm then 1 else 0) (ticks_of id (m_log m)) in
  ran id (m_log m) <= f /\ (live id (m_log m) -> ran id (m_log m) = f).
Proof. exact @repeating_fires. Qed.
Print Assumptions C24_fires.

(** If no tick ever had more to fire than the cap allows, that is the number of whole
    intervals since it was scheduled. *)
Theorem C24_floor : forall K G (run : closures K G) fuel depth g h m0 m x id a cid i imm cap b,
  steps run fuel (boot depth g) h = Fine m0 -> is_tick x -> step run fuel m0 x = Fine m ->
  m_log m = a ++ ESched id cid (KRepeating i imm cap) :: b -> 0 < i ->
  live id (m_log m) ->
  within i (Nat.max 1 cap) (now_of a) (now_of a) (if imm then 1 else 0) (ticks_of id (m_log m)) ->
  ran id (m_log m) = (now_of (m_log m) - now_of a) / i + (if imm then 1 else 0).
Proof. exact @repeating_floor. Qed.
Print Assumptions C24_floor.

(** It never fires early, and never more than [cap] times in one tick. *)
Theorem C24_never_early : forall K G (run : closures K G) fuel depth g h m id a cid i imm cap b,
  steps run fuel (boot depth g) h = Fine m ->
  m_log m = a ++ ESched id cid (KRepeating i imm cap) :: b -> 0 < i ->
  ran id (m_log m) <= (now_of (m_log m) - now_of a) / i + (if imm then 1 else 0).
Proof. exact @repeating_early. Qed.
Print Assumptions C24_never_early.

Theorem C24_cap : forall K G (run : closures K G) fuel depth g h m0 m x id a cid i imm cap b,
  steps run fuel (boot depth g) h = Fine m0 -> step run fuel m0 x = Fine m ->
  m_log m0 = a ++ ESched id cid (KRepeating i imm cap) :: b -> 0 < i ->
  ran id (m_log m) <= ran id (m_log m0) + Nat.max 1 cap.
Proof. exact @repeating_cap. Qed.
Print Assumptions C24_cap.

(** With positive intervals every tick ends, in a number of iterations per task bounded by
    the time reached. *)
Theorem C24_terminates : forall K G (run : closures K G) fuel depth g h,
  (forall k t w, Forall positive_req (snd (run k t w))) ->
  Forall positive_act h -> horizon 0 h + 2 <= fuel -> steps run fuel (boot depth g) h <> Hang.
Proof. exact @always_ends. Qed.
Print Assumptions C24_terminates.

(** With a zero interval it does not: a task that is never done loops forever. *)
Theorem C24_zero_refuted : forall K G (run : closures K G),
  (forall k t g, snd (fst (fst (run k t g))) = false) ->
  forall fuel depth g cid imm cap k,
  steps run fuel (boot (S depth) g) [HDo g [QSched cid (KRepeating 0 imm cap) k]; HTick 1] = Hang.
Proof. exact @zero_hangs. Qed.
Print Assumptions C24_zero_refuted.

(** Interval 3, scheduled at 1: by time 12 three whole intervals passed, by 13 four. One
    that starts immediately gets one more; a cap of 2 holds the tick from 3 to 12 down;
    and one that is done after its third call stops. *)
Example C24_example :
  let l := demo_log [HTick 1; HDo 0 [QSched 1 (KRepeating 3 false 9) 0; QSched 1 (KRepeating 3 true 9) 0;
                                     QSched 1 (KRepeating 3 false 2) 0; QSched 1 (KRepeating 3 true 9) 4];
                     HTick 2; HTick 9; HTick 1] in
  runs_of 0 l = [12; 12; 12; 13] /\ runs_of 1 l = [3; 12; 12; 12; 13] /\
  runs_of 2 l = [12; 12; 13] /\ runs_of 3 l = [3; 12; 12] /\ ticks_of 3 l = [3; 12].
Proof. vm_compute. repeat split. Qed.

(** *** C25: each tick ticks the tasks that are live exactly once, in the order they were
    scheduled; also those scheduled within the tick; not those cancelled or finished. *)
Theorem C25_once_each : forall K G (run : closures K G) fuel depth g h m0 m x,
  steps run fuel (boot depth g) h = Fine m0 -> is_tick x -> step run fuel m0 x = Fine m ->
  exists t q, m_log m = m_log m0 ++ ETick t :: q /\
    (forall u, ~ In (ETick u) q) /\
    increasing (works q) /\
    (forall id, live id (m_log m0) -> ticked id q = 1) /\
    (forall id, In id (scheduled (m_log m0)) -> ~ live id (m_log m0) -> ticked id q = 0) /\
    (forall id cid kd b1 b2, q = b1 ++ ESched id cid kd :: b2 ->
       ticked id q <= 1 /\ (~ In (ECancel cid) b2 -> ticked id q = 1)).
Proof. exact @tick_once. Qed.
Print Assumptions C25_once_each.

Theorem C25_numbered_in_order : forall K G (run : closures K G) fuel depth g h m,
  steps run fuel (boot depth g) h = Fine m -> exists n, scheduled (m_log m) = seq 0 n.
Proof. exact @in_order. Qed.
Print Assumptions C25_numbered_in_order.

Theorem C25_finished : forall K G (run : closures K G) fuel depth g h m id a b,
  steps run fuel (boot depth g) h = Fine m -> m_log m = a ++ EDone id :: b -> ticked id b = 0.
Proof. exact @finished_done. Qed.
Print Assumptions C25_finished.

(** Four tasks; the second is done in the first tick, where the third schedules a fifth;
    the first belongs to owner 1, who is cancelled by the last task in the first tick. *)
Example C25_example :
  let l := demo_log [HDo 0 [QSched 1 KContinuous 0; QSched 2 KImmediate 1; QSched 3 KImmediate 2;
                            QSched 4 KContinuous 0; QSched 5 (KDelayed 2) 3]; HTick 2; HTick 2; HTick 2] in
  works l = [0; 1; 2; 3; 4; 5;  3; 5;  3; 5] /\ scheduled l = [0; 1; 2; 3; 4; 5].
Proof. vm_compute. repeat split. Qed.

(** *** C26: after cancelling one invoked task the others should still run. They do not:
    tasks 5 and 6 are added and invoked, 5 is cancelled, and 6 never runs. *)
Theorem C26_cancel_refuted : exists (run : closures nat nat) h m,
  steps run 100 (boot 10 0) h = Fine m /\ m_queue m = [] /\
  (exists a b, m_log m = a ++ EInvoke 6 :: b /\ In (EAddInv 6 KInvoked) a) /\
  ~ In (ECancelInv 6) (m_log m) /\ ~ In 6 (invoked (m_log m)).
Proof.
  exists demo, [HDo 0 [QAddInv 5 KInvoked 0; QAddInv 6 KInvoked 0; QInvoke 5; QInvoke 6; QCancelInv 5]; HTick 1; HTick 1].
  eexists. split; [vm_compute; reflexivity|]. split; [reflexivity|]. split; [|split].
  - eexists [_; _; _], _. split; [reflexivity|]. simpl; auto.
  - cbn. intuition discriminate.
  - cbn. tauto.
Qed.
Print Assumptions C26_cancel_refuted.

(** As long as no invoked task is cancelled, after each tick every invocation asked for has
    been made, once and in order, also those asked for by tasks. ([Pk]: the closures of
    invoked tasks are not done; one that is done is removed.) *)
Theorem C26_invocations_partial : forall K G (run : closures K G) (Pk : K -> Prop),
  (forall k t g, Forall (fair_req Pk) (snd (run k t g))) ->
  (forall k t g, Pk k -> Pk (fst (fst (fst (run k t g)))) /\ snd (fst (fst (run k t g))) = false) ->
  forall fuel depth g h x m0 m, Forall (fair_act Pk) h -> is_tick x ->
  steps run fuel (boot depth g) h = Fine m0 -> step run fuel m0 x = Fine m ->
  registered (m_log m) -> invoked (m_log m) = asked (m_log m).
Proof. exact @all_invoked. Qed.
Print Assumptions C26_invocations_partial.

Example C26_example :
  let l := demo_log [HDo 0 [QAddInv 5 KInvoked 0; QAddInv 6 KInvoked 0; QInvoke 6; QInvoke 5; QSched 1 (KDelayed 2) 7]; HTick 1;
                     HDo 0 [QInvoke 6]; HTick 1] in
  invoked l = [6; 5; 6; 5] /\ asked l = [6; 5; 6; 5].
Proof. vm_compute. repeat split. Qed.

(** *** C27: the time of executor and scheduler never decreases and is the latest tick. *)
Theorem C27_now : forall K G (run : closures K G) fuel depth g h m0 m x,
  steps run fuel (boot depth g) h = Fine m0 -> step run fuel m0 x = Fine m ->
  m_now m0 <= m_now m /\ m_now m = now_of (m_log m) /\ m_snow m = m_now m.
Proof. exact @step_time. Qed.
Print Assumptions C27_now.

(** The time given to closures ascends if the executor is ticked by deltas. *)
Theorem C27_deltas_partial : forall K G (run : closures K G) fuel depth g h m,
  Forall relative h -> steps run fuel (boot depth g) h = Fine m -> ascending (given (m_log m)).
Proof. exact @time_ascends. Qed.
Print Assumptions C27_deltas_partial.

(** But if it is ticked to a time in the past, closures are given that time. *)
Theorem C27_past_refuted : exists (run : closures nat nat) h m,
  steps run 100 (boot 10 0) h = Fine m /\ ~ ascending (given (m_log m)).
Proof.
  exists demo, [HDo 0 [QSched 1 KContinuous 0]; HTickTo 10; HTickTo 5].
  eexists. split; [vm_compute; reflexivity|]. cbn. intros [H _]. inversion H; subst. lia.
Qed.
Print Assumptions C27_past_refuted.

Example C27_example :
  given (demo_log [HDo 0 [QSched 1 KContinuous 0; QSched 1 (KDelayed 5) 2]; HTick 3; HTick 0; HTick 4; HTick 4])
  = [3; 3; 7; 7; 11; 11].
Proof. vm_compute. reflexivity. Qed.
