(** Property C71: an async subject used by several threads.

    [async_run shuts f ts (async progs)] is the state after the steps [ts] of an async subject with
    reducer [f] that is used by the threads of [progs]. [reduced f l] reduces a list,
    if it is not empty; [as_list] lists what is there. The rest is as for C70. *)
From Verif Require Import Base SubscrModel PubConcModel PubConcSpec StoreConcModel StoreConcSpec StoreConcAsync.
Set Implicit Arguments.

Notation shutting V E := (nat -> list (ncall (item V) E) -> bool).
Definition never : shutting nat nat := fun _ _ => false.
Definition steps (ts : list (nat * nat)) := flat_map (fun tn => repeat (fst tn, 0) (snd tn)) ts.
Definition adding (p : list (list (op nat nat))) (ts : list (nat * nat)) := async_run never Nat.add (steps ts) (async p).
(** Whatever anybody is told is the reduction of what was stored up to some moment; and so is the
    greeting of who comes after the end, which is empty if nothing was stored. *)
Theorem C71_values : forall V E f (shuts : shutting V E) progs ts s,
  let b := async_run shuts f ts (async progs) in
  (forall t v, In (Nxt (t, v)) (told b s) -> exists G G', b_log b = G ++ G' /\ reduced f (map snd G) = Some v) /\
  (forall g, b_greet b s = Some g -> exists G G', b_log b = G ++ G' /\ g = as_list (reduced f (map snd G))).
Proof. exact async_values. Qed.
Print Assumptions C71_values.

(** From each thread everybody hears at most one value; after a greeting nobody hears any. *)
Theorem C71_once : forall V E f (shuts : shutting V E) progs ts s t,
  length (vals t (told (async_run shuts f ts (async progs)) s)) <= 1.
Proof. exact async_once. Qed.
Print Assumptions C71_once.

Theorem C71_greeted : forall V E f (shuts : shutting V E) progs ts s g t,
  let b := async_run shuts f ts (async progs) in
  b_greet b s = Some g -> vals t (told b s) = [].
Proof. exact async_greeted. Qed.
Print Assumptions C71_greeted.

(** So with one thread that completes everybody hears at most one value, from that thread. *)
Theorem C71_one : forall V E f (shuts : shutting V E) progs ts s t,
  (forall u, u <> t -> ~ In OCmp (nth u progs [])) ->
  forall u v u' v' l, told (async_run shuts f ts (async progs)) s = Nxt (u, v) :: l -> u = t /\ ~ In (Nxt (u', v')) l.
Proof. exact async_one. Qed.
Print Assumptions C71_one.

(** Everybody is told values and then at most one end. *)
Theorem C71_grammar : forall V E f (shuts : shutting V E) progs ts s,
  proper (shuts s) (v_dest (b_w (async_run shuts f ts (async progs))) s).
Proof. exact async_grammar. Qed.
Print Assumptions C71_grammar.

(** Who begins to subscribe when the subject is closed is greeted, unless there is an error, with the
    reduction of at least all that was stored before. *)
Theorem C71_late : forall V E f (shuts : shutting V E) progs ts1 ts2 s,
  let b1 := async_run shuts f ts1 (async progs) in let b2 := async_run shuts f ts2 b1 in
  is_closed (b_w b1) = true -> ~ has_begun b1 s -> v_used (b_w b2) s = true -> seen_error (b_w b2) = false ->
  exists D1 D2, b_log b2 = b_log b1 ++ D1 ++ D2 /\ b_greet b2 s = Some (as_list (reduced f (map snd (b_log b1 ++ D1)))).
Proof. exact async_late. Qed.
Print Assumptions C71_late.


(** Thread 0 completes when it has pushed 1 and thread 1 has pushed 4. Then thread 1 pushes 8, and
    destination 1 comes late. *)
Example C71_ex :
  let b := adding [[OSub 0; ONext 1; OCmp]; [ONext 4; ONext 8]; [OSub 1]] [(0, 13); (1, 1); (0, 60); (1, 60); (2, 60)] in
  (b_greet b 0, told b 0, b_greet b 1, told b 1, b_log b) =
  (None, [Nxt (0, 5); Cmp], Some [13], [Cmp], [(0, 1); (1, 4); (1, 8)]).
Proof. vm_compute. reflexivity. Qed.
(** At the moment of the completion nobody has begun to subscribe destination 1. *)
Example C71_late_ex :
  let b := adding [[OSub 0; ONext 1; OCmp]; [ONext 4; ONext 8]; [OSub 1]] [(0, 13); (1, 1); (0, 60)] in
  (is_closed (b_w b), v_used (b_w b) 1, v_thr (b_w b), nth 2 (b_rest b) [], b_log b) =
  (true, false, [[]; []; []], [MIsClosed nat nat 1; MFeed (OSub 1)], [(0, 1); (1, 4)]).
Proof. vm_compute. reflexivity. Qed.
(** Nothing was stored; there is an error. *)
Example C71_ex_none :
  let b := adding [[OSub 0; OCmp]; [OSub 1]] [(0, 60); (1, 60)] in
  (b_greet b 0, told b 0, b_greet b 1, told b 1) = (None, [Cmp], Some [], [Cmp]).
Proof. vm_compute. reflexivity. Qed.
Example C71_ex_error :
  let b := adding [[OSub 0; ONext 1; OErr 5]; [OSub 1]] [(0, 60); (1, 60)] in
  (b_greet b 0, told b 0, b_greet b 1, told b 1) = (None, [Err 5], None, [Err 5]).
Proof. vm_compute. reflexivity. Qed.

(** If two threads complete, two values may be told. *)
Theorem C71_two_refuted : exists ts, let b := adding [[OSub 0; ONext 1; OCmp]; [ONext 2; OCmp]] ts in
  told b 0 = [Nxt (0, 1); Nxt (1, 3); Cmp].
Proof. exists [(0, 19); (1, 60); (0, 60)]. vm_compute. reflexivity. Qed.
Print Assumptions C71_two_refuted.

(** With one thread that completes and one that pushes, who was there may hear no value, and who comes
    later one, *)
Theorem C71_same_refuted : exists ts, let b := adding [[OSub 0; OCmp; OSub 1]; [ONext 2]] ts in
  b_greet b 0 = None /\ told b 0 = [Cmp] /\ b_greet b 1 = Some [2] /\ told b 1 = [Cmp].
Proof. exists [(0, 13); (1, 60); (0, 60)]. vm_compute. auto. Qed.
Print Assumptions C71_same_refuted.

(** and who subscribes during the completion may hear only the completion, though a value was pushed
    before. *)
Theorem C71_between_refuted : exists ts, let b := adding [[ONext 2; OCmp]; [OSub 0]] ts in
  at_rest b /\ b_log b = [(0, 2)] /\ b_greet b 0 = None /\ told b 0 = [Cmp].
Proof.
  exists [(1, 1); (0, 60); (1, 60)]. vm_compute. repeat split; intros [|[|[|t]]]; reflexivity.
Qed.
Print Assumptions C71_between_refuted.
