(** Property C70: behavior and replay subjects used by several threads.

    [behavior_run shuts ts (behavior v progs)] is the state after the steps [ts] of a behavior subject
    that was made with [v] and is used by the threads of [progs]; [replay_run shuts cap ts (replaying
    progs)] that of a replay subject of capacity [cap]. [b_cell] is what they store, [b_greet b s] what
    destination [s] was told before it was handed to the publish subject inside, and [told b s] what it
    was told after that. [b_log] lists what was stored, with the thread that did; [stored t l] are the
    values of thread [t] in such a list. [at_rest b] means that nobody is in the middle of anything,
    [open b] that the subject has not ended and did not panic. The rest is as for C69. *)
From Verif Require Import Base SubscrModel PubConcModel PubConcSpec StoreConcModel StoreConcSpec StoreConcMain.
Set Implicit Arguments.

Notation shutting V E := (nat -> list (ncall (item V) E) -> bool).
Definition never : shutting nat nat := fun _ _ => false.
Definition steps (ts : list (nat * nat)) := flat_map (fun tn => repeat (fst tn, 0) (snd tn)) ts.
Definition goes (p : list (list (op nat nat))) (ts : list (nat * nat)) := behavior_run never (steps ts) (behavior 0 p).
Definition replays (p : list (list (op nat nat))) (ts : list (nat * nat)) := replay_run never 2 (steps ts) (replaying p).

(** Everybody is greeted, unless there is an error, with what was stored at some moment. Of what each
    thread pushes, one hears after that, in order, only what was stored later, or the one it had
    stored last; so no thread's values are heard twice, except that one, and one never hears an
    older value after a newer one of the same thread. *)
Theorem C70_greets : forall V E (shuts : shutting V E) v0 progs ts s,
  let b := behavior_run shuts ts (behavior v0 progs) in
  (v_used (b_w b) s = true -> seen_error (b_w b) = false -> b_greet b s <> None) /\
  forall g, b_greet b s = Some g -> exists G G', b_log b = G ++ G' /\ g = [last (map snd G) v0] /\
    forall t, sub (vals t (told b s)) (last1 (stored t G) ++ stored t G').
Proof. exact behavior_greets. Qed.
Print Assumptions C70_greets.

Theorem C70_replays : forall V E (shuts : shutting V E) cap progs ts s,
  let b := replay_run shuts cap ts (replaying progs) in
  (v_used (b_w b) s = true -> seen_error (b_w b) = false -> b_greet b s <> None) /\
  forall g, b_greet b s = Some g -> exists G G', b_log b = G ++ G' /\ g = skipn (length G - cap) (map snd G) /\
    forall t, sub (vals t (told b s)) (last1 (stored t G) ++ stored t G').
Proof. exact replay_greets. Qed.
Print Assumptions C70_replays.

(** Thread 1 has pushed 1 and 2 when destination 0 is greeted; it will push 3. *)
Example C70_greets_ex :
  let b := goes [[OSub 0]; [ONext 1; ONext 2; ONext 3]] [(1, 20); (0, 20); (1, 30)] in
  (b_greet b 0, told b 0, b_log b, b_cell b) = (Some [2], [Nxt (1, 3)], [(1, 1); (1, 2); (1, 3)], 3).
Proof. vm_compute. reflexivity. Qed.
Example C70_replays_ex :
  let b := replays [[OSub 0]; [ONext 1; ONext 2; ONext 3; ONext 4]] [(1, 30); (0, 20); (1, 30)] in
  (b_greet b 0, told b 0, b_log b, b_cell b) = (Some [2; 3], [Nxt (1, 4)], [(1, 1); (1, 2); (1, 3); (1, 4)], [3; 4]).
Proof. vm_compute. reflexivity. Qed.
(** Nobody is greeted after an error. *)
Example C70_greets_error :
  let b := goes [[OSub 0]; [ONext 1; OErr 5]] [(1, 60); (0, 60)] in
  (b_greet b 0, told b 0, b_cell b) = (None, [Err 5], 1).
Proof. vm_compute. reflexivity. Qed.

(** There is one order in which everything is told after the greetings, as for the publish subject
    (C69_one_order); what is told was stored; each thread's values are stored in the order in which it
    pushes them, and at rest all are stored, even those pushed after the end; and, if there was none,
    told or in the queue. This is for any cell. *)
Theorem C70_one_order : forall V E B store replay (shuts : shutting V E) (cell : B) progs ts,
  let b := brun store replay shuts ts (bstart cell (@behaving V E) progs) in exists L,
  (forall s, let d := v_dest (b_w b) s in
    (exists c, ends c = true /\ d_told d = [c] /\ d_closed d = true) \/
    exists x L1 L2 e, L = L1 ++ x ++ L2 /\ d_told d = x ++ e /\ (e = [] \/ (e = [Uns] /\ d_closed d = true)) /\
      (d_closed d = false -> v_lock (b_w b) = Free -> x = [] \/ L2 = [])) /\
  (forall t, sub (vals t L) (stored t (b_log b)) /\ exists z, pushes (nth t progs []) = stored t (b_log b) ++ z) /\
  b_cell b = fold_left store (map snd (b_log b)) cell /\
  (at_rest b -> forall t, stored t (b_log b) = pushes (nth t progs []) /\
     (open b -> vals t L ++ valn t (v_q (b_w b)) = pushes (nth t progs []))).
Proof. exact store_order. Qed.
Print Assumptions C70_one_order.

Example C70_one_order_ex :
  let b := goes [[OSub 0; ONext 1]; [ONext 2]; [OSub 1; ONext 3]] [(0, 18); (2, 10); (1, 8); (0, 30); (2, 30); (1, 30)] in
  (b_greet b 0, told b 0, b_greet b 1, told b 1, b_log b, v_q (b_w b)) =
  (Some [0], [Nxt (1, 2); Nxt (0, 1); Nxt (2, 3)], Some [1], [Nxt (1, 2); Nxt (0, 1); Nxt (2, 3)], [(0, 1); (1, 2); (2, 3)], []).
Proof. vm_compute. reflexivity. Qed.

(** What is pushed after the end is stored, and greets who comes later. *)
Example C70_one_order_after :
  let b := goes [[OCmp; ONext 1]; [OSub 0]] [(0, 60); (1, 60)] in
  (b_greet b 0, told b 0, b_log b, b_cell b) = (Some [1], [Cmp], [(0, 1)], 1).
Proof. vm_compute. reflexivity. Qed.

(** After the greeting everybody is told values and then at most one end. *)
Theorem C70_grammar : forall V E B store replay (shuts : shutting V E) (cell : B) progs ts s,
  proper (shuts s) (v_dest (b_w (brun store replay shuts ts (bstart cell (@behaving V E) progs))) s).
Proof. exact store_grammar. Qed.
Print Assumptions C70_grammar.

Example C70_grammar_ex :
  let b := goes [[OSub 0; ONext 1; OCmp]; [ONext 2; OErr 5]] [(0, 18); (1, 8); (0, 60); (1, 60)] in
  (b_greet b 0, told b 0, shut b 0) = (Some [0], [Nxt (1, 2); Nxt (0, 1); Cmp], true).
Proof. vm_compute. reflexivity. Qed.

(** Who has its subscription hears all that is stored from then on, unless that stays in the queue. *)
Theorem C70_hears : forall V E B store replay (shuts : shutting V E) (cell : B) progs ts1 ts2 s,
  let b1 := brun store replay shuts ts1 (bstart cell (@behaving V E) progs) in let b2 := brun store replay shuts ts2 b1 in
  has b1 s -> at_rest b2 -> open b2 -> v_q (b_w b2) = [] -> shut b2 s = false ->
  exists D, b_log b2 = b_log b1 ++ D /\ forall t, exists x, vals t (told b2 s) = x ++ stored t D.
Proof. exact store_hears. Qed.
Print Assumptions C70_hears.

(** If only one thread pushes, who had its subscription before the last value was stored has been told
    last what the behavior subject stores. *)
Theorem C70_latest : forall V E (shuts : shutting V E) v0 progs t ts1 ts2 s,
  let b1 := behavior_run shuts ts1 (behavior v0 progs) in let b2 := behavior_run shuts ts2 b1 in
  (forall u, u <> t -> pushes (nth u progs []) = []) ->
  has b1 s -> b_log b2 <> b_log b1 ->
  at_rest b2 -> open b2 -> v_q (b_w b2) = [] -> shut b2 s = false ->
  exists l, told b2 s = l ++ [Nxt (t, b_cell b2)].
Proof. exact behavior_latest. Qed.
Print Assumptions C70_latest.

(** Destination 0 has its subscription while thread 1 is about to push 2 and 3. *)
Example C70_hears_ex :
  let p := [[OSub 0]; [ONext 1; ONext 2; ONext 3]] in
  let b1 := goes p [(0, 6); (1, 11); (0, 20)] in
  let b2 := behavior_run never (steps [(1, 60)]) b1 in
  (v_had (b_w b1) 0, b_log b1, b_log b2, told b2 0, shut b2 0, b_cell b2, v_q (b_w b2)) =
  (true, [(1, 1); (1, 2)], [(1, 1); (1, 2); (1, 3)], [Nxt (1, 2); Nxt (1, 3)], false, 3, []).
Proof. vm_compute. reflexivity. Qed.
Example C70_hears_rest :
  let b2 := goes [[OSub 0]; [ONext 1; ONext 2; ONext 3]] [(0, 6); (1, 11); (0, 20); (1, 60)] in
  (v_lock (b_w b2), v_thr (b_w b2), b_rest b2, is_closed (b_w b2)) = (Free, [[]; []], [[]; []], false).
Proof. vm_compute. reflexivity. Qed.

(** Not all is well with one thread that pushes. Who is greeted before a value is stored and added
    after it was told does not hear it, and stays behind what the subject stores. *)
Theorem C70_current_refuted : exists ts, let b := goes [[OSub 0]; [ONext 1]] ts in
  at_rest b /\ open b /\ v_q (b_w b) = [] /\ has b 0 /\ shut b 0 = false /\
  b_greet b 0 = Some [0] /\ told b 0 = [] /\ b_cell b = 1.
Proof.
  exists [(0, 2); (1, 30); (0, 30)]. vm_compute. repeat split; try discriminate; intros [|[|[|t]]]; reflexivity.
Qed.
Print Assumptions C70_current_refuted.

(** Who is greeted between the storing and the telling hears the value twice. *)
Theorem C70_once_refuted : exists ts, let b := goes [[OSub 0]; [ONext 1]] ts in
  b_log b = [(1, 1)] /\ b_greet b 0 = Some [1] /\ told b 0 = [Nxt (1, 1)].
Proof. exists [(1, 1); (0, 30); (1, 30)]. vm_compute. auto. Qed.
Print Assumptions C70_once_refuted.

(** With two threads that push, what is stored may be not what was told last, *)
Theorem C70_stored_refuted : exists ts, let b := goes [[OSub 0; ONext 1]; [ONext 2]] ts in
  at_rest b /\ open b /\ v_q (b_w b) = [] /\ shut b 0 = false /\
  b_greet b 0 = Some [0] /\ told b 0 = [Nxt (1, 2); Nxt (0, 1)] /\ b_cell b = 2.
Proof.
  exists [(0, 14); (1, 30); (0, 30)]. vm_compute. repeat split; try discriminate; intros [|[|[|t]]]; reflexivity.
Qed.
Print Assumptions C70_stored_refuted.

(** and a replay subject replays in another order than it has told. *)
Theorem C70_replay_refuted : exists ts, let b := replays [[OSub 0; ONext 1; OSub 1]; [ONext 2]] ts in
  at_rest b /\ open b /\ v_q (b_w b) = [] /\
  told b 0 = [Nxt (1, 2); Nxt (0, 1)] /\ b_greet b 1 = Some [1; 2].
Proof.
  exists [(0, 14); (1, 30); (0, 60)]. vm_compute. repeat split; try discriminate; intros [|[|[|t]]]; reflexivity.
Qed.
Print Assumptions C70_replay_refuted.
