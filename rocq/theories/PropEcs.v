(** Property C57: subscriptions made through Bevy commands, their entities and retries. *)
From Verif Require Import Base EcsModel EcsSpec EcsProofs EcsFacts.
Set Implicit Arguments.

(** Every step of a subscription happens at most once, and in order. *)
Theorem C57_orderly : forall h, always orderly (w_tr (run h init)).
Proof. exact ecs_orderly. Qed.
Print Assumptions C57_orderly.

(** A destination that is subscribed and not over sits in a component on an entity there is. *)
Theorem C57_reachable : forall h, reachable (w_tr (run h init)).
Proof. exact ecs_reachable. Qed.
Print Assumptions C57_reachable.

(** Despawning the entity of a subscription ends it. *)
Theorem C57_unsubscribed : forall h, unsubscribed (w_tr (run h init)).
Proof. exact ecs_unsubscribed. Qed.
Print Assumptions C57_unsubscribed.

(** The executor of the Last schedule leaves no entity of a subscription that is over. *)
Theorem C57_tidy : forall h, tidy (w_tr (run (h ++ [ATick]) init)).
Proof. exact ecs_tidy. Qed.
Print Assumptions C57_tidy.

(** The clean up leaves no entity without a subscription. *)
Theorem C57_clean : forall h, clean (w_tr (run (h ++ [AClean]) init)).
Proof. exact ecs_clean. Qed.
Print Assumptions C57_clean.

(** Within three runs of the First schedule the destination is subscribed or unsubscribed. *)
Theorem C57_decided : forall h, decided (w_tr (run h init)).
Proof. exact ecs_decided. Qed.
Print Assumptions C57_decided.

(** To an entity that has an observable: at once. *)
Theorem C57_at_once : forall h e, let l := w_tr (run h init) in
  w_tr (run (h ++ [ASubscribe e]) init) = l ++ TDo (ASubscribe e) :: TSpawn (made l) e :: at_once (made l) (has_now e l []).
Proof. exact ecs_at_once. Qed.
Print Assumptions C57_at_once.

(** To one that has an observable when First runs: then. It is attached if its entity is still
    there, and if not, it is subscribed and lost. *)
Theorem C57_retried : forall h s e os,
  let l := w_tr (run h init) in let l' := w_tr (run (h ++ [AFirst]) init) in
  In (TSpawn s e) l -> subscribed s l = false -> over s l = false -> has_now e l [] = false :: os ->
  subscribed s l' = true /\ attached s l' = negb (gone s l) /\ lost s l' = gone s l || lost s l.
Proof. exact ecs_retried. Qed.
Print Assumptions C57_retried.

Theorem C57_retried_closed : forall h s e os,
  let l := w_tr (run h init) in let l' := w_tr (run (h ++ [AFirst]) init) in
  In (TSpawn s e) l -> subscribed s l = false -> over s l = false -> has_now e l [] = true :: os ->
  subscribed s l' = true /\ over s l' = true /\ gone s l' = true.
Proof. exact ecs_retried_closed. Qed.
Print Assumptions C57_retried_closed.

(** And the entity is not there: the clean up at the end of the frame despawns it. *)
Theorem C57_same_frame : forall h, always same_frame (w_tr (run h init)).
Proof. exact ecs_same_frame. Qed.
Print Assumptions C57_same_frame.

(** The end of the application ends every subscription. *)
Theorem C57_exit : forall h s, let l := w_tr (run (h ++ [AExit]) init) in subscribed s l = true -> over s l = true.
Proof. exact ecs_exit. Qed.
Print Assumptions C57_exit.

(** Three subscriptions, of which one is despawned and one ends; a fourth to an entity without
    observables is given up in the third First. *)
Example C57_example :
  let h := frame [AHas 7 [false]; AHas 8 [true]; ASubscribe 7; ASubscribe 8; ASubscribe 7; ADespawn 0] ++
           frame [ASubscribe 9; AEnd 2] ++ frame [] ++ frame [] ++ frame [] in
  filter (fun e => match e with TDo _ => false | _ => true end) (w_tr (run h init)) =
  [TSpawn 0 7; TSub 0; TPut 0; TSpawn 1 8; TSub 1; TOver 1; TGone 1; TSpawn 2 7; TSub 2; TPut 2; TGone 0; TOver 0;
   TSpawn 3 9; TOver 2; TGone 3; TGone 2; TOver 3] /\
  firsts 3 (w_tr (run h init)) = 3 /\ cleans 2 (w_tr (run h init)) = 5.
Proof. vm_compute. auto. Qed.

(** A retry that finds the entity. *)
Example C57_retried_example :
  let h := [ASubscribe 7; AHas 7 [false; true]] in let l := w_tr (run h init) in
  In (TSpawn 0 7) l /\ subscribed 0 l = false /\ over 0 l = false /\ has_now 7 l [] = [false; true] /\ gone 0 l = false /\
  attached 0 (w_tr (run (h ++ [AFirst]) init)) = true.
Proof. vm_compute. repeat split. auto. Qed.
(** It waits for the third First, and not longer. *)
Example C57_third_example :
  attached 0 (w_tr (run [ASubscribe 7; AFirst; AFirst; AHas 7 [false]; AFirst] init)) = true /\
  over 0 (w_tr (run [ASubscribe 7; AFirst; AFirst] init)) = false /\
  over 0 (w_tr (run [ASubscribe 7; AFirst; AFirst; AFirst; AHas 7 [false]; AFirst] init)) = true /\
  subscribed 0 (w_tr (run [ASubscribe 7; AFirst; AFirst; AFirst; AHas 7 [false]; AFirst] init)) = false.
Proof. vm_compute. auto. Qed.
Example C57_retried_closed_example :
  let h := [ASubscribe 7; AClean; AHas 7 [true]] in let l := w_tr (run h init) in
  In (TSpawn 0 7) l /\ subscribed 0 l = false /\ over 0 l = false /\ has_now 7 l [] = [true] /\
  gone 0 l = true /\ over 0 (w_tr (run (h ++ [AFirst]) init)) = true.
Proof. vm_compute. repeat split. auto. Qed.
Example C57_exit_example :
  let h := [AHas 7 [false]; ASubscribe 7; ASubscribe 8; AHas 8 [false]; AExit] in
  over 0 (w_tr (run h init)) = true /\ attached 1 (w_tr (run h init)) = true /\ over 1 (w_tr (run h init)) = true.
Proof. vm_compute. auto. Qed.

(** The observable is inserted in the frame in which it is subscribed to, just after it, which
    the documentation says works in the next First: the subscription is lost. *)
Theorem C57_retry_refuted : exists h s e,
  h = frame [ASubscribe e; AHas e [false]] ++ frame [] /\
  let l := w_tr (run h init) in
  In (TSpawn s e) l /\ attached s l = false /\ lost s l = true /\ over s l = true.
Proof. eexists _, 0, 7. split; [reflexivity|]. vm_compute. repeat split. auto. Qed.
Print Assumptions C57_retry_refuted.

(** Unsubscribing what still waits does not keep it from being subscribed. *)
Theorem C57_despawn_refuted : exists h, h = frame [ASubscribe 7; ADespawn 0; AHas 7 [false]] ++ frame [] /\
  ~ always unless_gone (w_tr (run h init)).
Proof.
  eexists. split; [reflexivity|]. intros H.
  set (l := w_tr (run _ init)) in *. vm_compute in l.
  specialize (H (firstn 9 l) (TSub 0) (skipn 10 l) eq_refl). vm_compute in H. discriminate.
Qed.
Print Assumptions C57_despawn_refuted.
