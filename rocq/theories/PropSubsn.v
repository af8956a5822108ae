(** Property C55: [SharedSubscription], whose clones are used by any number of threads,
    with teardowns that call back into it.

    [run body sched (init progs)]: thread t does the operations [nth t progs] on its
    clones; [body n] is what teardown n does with the clone it has captured; [sched] says
    which thread makes the next step (a step that has to wait is skipped). In the log
    [VBegin t o] thread t begins operation o, [VStored n] teardown n is stored, [VRun n] it is run
    from the store, [VLate n] it is run instead of being stored; [stored] and [ran] are the n of
    the VStored and VRun of a log. [wf d p]: p drops its clones only at the very end (if d). *)
From Verif Require Import Base SubsnModel SubsnProofs SubsnShape SubsnDrop.
Set Implicit Arguments.

(** teardown 1 unsubscribes again and asks, 2 adds a teardown, the others do nothing *)
Definition sub_body (n : nat) : list op := match n with 1 => [OUnsub; OAsk] | 2 => [OAdd 5] | _ => [] end.
Definition body1 (n : nat) : list op := match n with 1 => [OUnsub; OAsk] | _ => [] end.
Example bodies_ok : (forall n, ~ In OLast (sub_body n)) /\ (forall n, ~ In OLast (body1 n)) /\ noadds body1.
Proof.
  split; [|split]; [intros [|[|[|n]]]|intros [|[|n]]|intros [|[|n]] m]; simpl; intuition discriminate.
Qed.

(** *** C55 order: the teardowns that have run are the first ones stored, in the order
    they were stored, each once, under any interleaving; when every thread is finished, what
    has not run is still stored, and nothing is if the subscription is closed *)
Theorem C55_in_order : forall body progs sched, let s := run body sched (init progs) in exists rest,
  stored (v_log s) = ran (v_log s) ++ rest /\ (finished s -> rest = v_fins s) /\
  (finished s -> v_closed s = true -> rest = []).
Proof. exact in_order. Qed.
Print Assumptions C55_in_order.
Example C55_in_order_ex :
  let s := run body1 (repeat 0 6 ++ repeat 1 9 ++ repeat 0 20 ++ repeat 1 40)
             (init [[OAdd 3; OAdd 4; OAsk]; [OAdd 1; OUnsub; OAdd 6]]) in
  finished s /\ stored (v_log s) = [3; 4; 1] /\ ran (v_log s) = [3; 4; 1] /\ late (v_log s) = [6].
Proof. vm_compute. repeat split; repeat constructor. Qed.

(** *** C55 cause: nothing runs, and is_closed() is not true, unless somebody has
    called unsubscribe() or every thread has dropped its clones *)
Theorem C55_only_asked : forall body progs sched e, let s := run body sched (init progs) in
  (exists n, e = VRun n) \/ (exists n, e = VLate n) \/ (exists t, e = VAnswer t true) ->
  In e (v_log s) -> (exists t, In (VBegin t OUnsub) (v_log s)) \/ v_refs s = 0.
Proof. exact only_asked. Qed.
Print Assumptions C55_only_asked.
Example C55_only_asked_ex :
  v_log (run body1 (repeat 0 20) (init [[OAdd 3; OAsk; OLast]])) =
    [VBegin 0 (OAdd 3); VStored 3; VBegin 0 OAsk; VAnswer 0 false; VBegin 0 OLast; VRun 3].
Proof. vm_compute; auto. Qed.

(** *** C55 panics: the queue never holds more than one notification and the depth
    guard is never hit *)
Theorem C55_no_panic : forall body progs sched, let s := run body sched (init progs) in
  v_panic s = false /\ v_queue s <= 1.
Proof. exact no_panic. Qed.
Print Assumptions C55_no_panic.

(** *** C55 one thread: when it has finished and unsubscribe() was called, from wherever,
    everything that was stored has run *)
Theorem C55_one_thread : forall body, (forall n, ~ In OLast (body n)) -> forall d p sched, wf d p ->
  let s := run body sched (init [p]) in
  finished s -> (exists t, In (VBegin t OUnsub) (v_log s)) ->
  v_closed s = true /\ ran (v_log s) = stored (v_log s).
Proof. exact one_thread. Qed.
Print Assumptions C55_one_thread.
Example C55_one_thread_ex :
  let s := run sub_body (repeat 0 60) (init [[OAdd 1; OAdd 3; OUnsub; OUnsub; OAdd 4; OPart; OAsk; OLast]]) in
  finished s /\ ran (v_log s) = [1; 3] /\ late (v_log s) = [4] /\ v_refs s = 0.
Proof. vm_compute. repeat split; repeat constructor. Qed.

(** The same with two threads is false: while one of them looks whether the subscription is
    closed it holds the mutex; unsubscribe() on the other is put into the queue, and nobody
    takes it out. is_closed() says the subscription is closed, but nothing has run. *)
Theorem C55_two_threads_refuted : exists body progs sched,
  (forall n, ~ In OLast (body n)) /\ Forall (wf false) progs /\
  let s := run body sched (init progs) in
  finished s /\ In (VBegin 0 OUnsub) (v_log s) /\ In (VAnswer 0 true) (v_log s) /\
  v_closed s = false /\ stored (v_log s) = [3] /\ ran (v_log s) = [] /\ v_queue s = 1.
Proof.
  exists body1, [[OAdd 3; OUnsub; OAsk]; [OAsk]], (repeat 0 4 ++ [1; 1] ++ repeat 0 9 ++ [1]).
  split; [apply bodies_ok|]. split; [|vm_compute; split; [repeat constructor|]; repeat split; auto 20].
  constructor; [exists [OAdd 3; OUnsub; OAsk]|constructor; [exists [OAsk]|constructor]]; simpl; intuition discriminate.
Qed.
Print Assumptions C55_two_threads_refuted.

(** *** C55 dropping: when every thread drops its clones at the end, the deferred state
    is never dropped dirty; and when all have finished, a call of unsubscribe() has been
    carried out by somebody, and without one everything stored has run unless a stored
    teardown holds a clone *)
Theorem C55_dropped : forall body, (forall n, ~ In OLast (body n)) -> forall progs sched,
  Forall (wf true) progs -> progs <> [] -> let s := run body sched (init progs) in
  v_dirty s = false /\
  (finished s -> (exists t, In (VBegin t OUnsub) (v_log s)) \/ existsb (captures body) (v_fins s) = false ->
   v_closed s = true /\ ran (v_log s) = stored (v_log s)).
Proof. exact dropped. Qed.
Print Assumptions C55_dropped.
Example C55_dropped_ex :
  let s := run body1 (repeat 0 4 ++ [1; 1] ++ repeat 0 11 ++ repeat 1 20)
             (init [[OAdd 3; OUnsub; OLast]; [OAsk; OLast]]) in
  finished s /\ ran (v_log s) = [3] /\ v_dirty s = false /\ v_refs s = 0.
Proof. vm_compute. repeat split; repeat constructor. Qed.
(** the exception: a teardown that holds a clone keeps the subscription alive for ever *)
Theorem C55_leak_refuted : exists body p sched, (forall n, ~ In OLast (body n)) /\ wf true p /\
  let s := run body sched (init [p]) in
  finished s /\ v_refs s = 0 /\ v_closed s = false /\ stored (v_log s) = [1; 3] /\ ran (v_log s) = [].
Proof.
  exists body1, [OAdd 1; OAdd 3; OLast], (repeat 0 40).
  split; [apply bodies_ok|]. split; [exists [OAdd 1; OAdd 3]; simpl; intuition discriminate|].
  vm_compute. repeat split; repeat constructor.
Qed.
Print Assumptions C55_leak_refuted.

(** *** C55 progress: unless a teardown adds a teardown, threads never wait for each
    other for ever, nor for themselves: as long as one is not finished, some thread can make a
    step, and only boundedly many steps are made *)
Theorem C55_no_deadlock : forall body, (forall n, ~ In OLast (body n)) -> forall ds progs sched,
  Forall2 wf ds progs -> (forall n m, ~ In (OAdd m) (body n)) -> let s := run body sched (init progs) in
  (forall t, step body t s = None) -> finished s.
Proof. exact no_deadlock. Qed.
Print Assumptions C55_no_deadlock.
Theorem C55_no_livelock : forall body progs, (forall n m, ~ In (OAdd m) (body n)) ->
  exists bound, forall sched, taken body sched (init progs) <= bound.
Proof. exact no_livelock. Qed.
Print Assumptions C55_no_livelock.
Example C55_no_livelock_ex :
  taken body1 (repeat 0 60) (init [[OAdd 1; OUnsub]]) = 21 /\
  finished (run body1 (repeat 0 60) (init [[OAdd 1; OUnsub]])).
Proof. vm_compute. split; repeat constructor. Qed.
(** a teardown that adds a teardown waits for the mutex its own thread holds *)
Theorem C55_add_in_teardown_refuted : exists body p sched, (forall n, ~ In OLast (body n)) /\ wf false p /\
  let s := run body sched (init [p]) in (forall t, step body t s = None) /\ ~ finished s.
Proof.
  exists sub_body, [OAdd 2; OUnsub], (repeat 0 40).
  split; [apply bodies_ok|]. split; [exists [OAdd 2; OUnsub]; simpl; intuition discriminate|].
  split.
  - intros [|[|t]]; vm_compute; auto.
  - vm_compute. intros H. inversion H. discriminate.
Qed.
Print Assumptions C55_add_in_teardown_refuted.
