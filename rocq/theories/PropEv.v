(** Property C61: EventObservable, and the entity that it and ProxyObservable hold in the Bevy
    world. See EvModel.v for [esteps] and EvSpec.v for [heard], [until] and [fair]. *)
From Verif Require Import Base SubscrModel SchedModel EvModel EvSpec EvWorld Ev.
Set Implicit Arguments.

(** The destination is told exactly the events triggered on the entity while the satellite
    listens, and completion when the entity is gone, until it closes or is unsubscribed. *)
Theorem C61_hears : forall A X (down : list (ncall A Empty_set) -> bool * list (req (clos X))), fair_down down ->
  forall (user : X -> nat -> list (lev A) -> X * bool * list (oact A X)), fair_user user -> forall fuel depth h m,
  fair_acts h -> esteps down user fuel (boot depth fresh) h = Fine m ->
  g_told (m_world m) = until (fun l => fst (down l)) [] (heard true (g_log (m_world m))).
Proof. exact ev_hears. Qed.
Print Assumptions C61_hears.

(** After every tick: if the destination was closed before it, no satellite is left; if it is
    subscribed to and open, the satellite listens. *)
Theorem C61_settles : forall A X (down : list (ncall A Empty_set) -> bool * list (req (clos X))), fair_down down ->
  forall (user : X -> nat -> list (lev A) -> X * bool * list (oact A X)), fair_user user -> forall fuel depth h m a m',
  fair_acts h -> esteps down user fuel (boot depth fresh) h = Fine m -> is_tick a ->
  estep down user fuel m a = Fine m' ->
  (g_open (m_world m) = false -> g_sat (m_world m') <> SLive) /\
  (g_sub (m_world m') = true -> g_open (m_world m') = true -> g_sat (m_world m') = SLive).
Proof. exact ev_settles. Qed.
Print Assumptions C61_settles.

(** There is at most one satellite, and it is not despawned while the destination is open. *)
Theorem C61_once : forall A X (down : list (ncall A Empty_set) -> bool * list (req (clos X))), fair_down down ->
  forall (user : X -> nat -> list (lev A) -> X * bool * list (oact A X)), fair_user user -> forall fuel depth h m,
  fair_acts h -> esteps down user fuel (boot depth fresh) h = Fine m ->
  spawns (g_log (m_world m)) <= 1 /\ (g_sat (m_world m) = SGone -> g_open (m_world m) = false).
Proof. exact ev_once. Qed.
Print Assumptions C61_once.

(** A destination that closes itself after the second event, and a task that triggers one more. *)
Definition two : list (ncall nat Empty_set) -> bool * list (req (clos nat)) := fun l => (2 <=? length l, []).
Definition all : list (ncall nat Empty_set) -> bool * list (req (clos nat)) := fun _ => (false, []).
Definition trig : nat -> nat -> list (lev nat) -> nat * bool * list (oact nat nat) := fun x _ _ => (x, true, [OCmd (UTrig x)]).
Definition view (o : outcome (clos nat) (world nat)) :=
  match o with Fine m => Some (g_told (m_world m), g_open (m_world m), g_sat (m_world m), g_log (m_world m)) | _ => None end.

Example C61_example :
  let h := [ESub; EDo [OCmd (UTrig 1)]; ETick 1; EDo [OCmd (UTrig 2)]; EDo [OReq (QSched 3 KImmediate (KOther 3))]; ETick 1;
            EDo [OCmd (UTrig 4)]] in
  fair_down two /\ fair_user trig /\ fair_acts h /\
  view (esteps two trig 100 (boot 10 fresh) h) =
    Some ([Nxt 2; Nxt 3], false, SLive, [LTrig 1; LSpawn; LTrig 2; LTrig 3; LTrig 4]) /\
  view (esteps two trig 100 (boot 10 fresh) (h ++ [ETick 1])) =
    Some ([Nxt 2; Nxt 3], false, SGone, [LTrig 1; LSpawn; LTrig 2; LTrig 3; LTrig 4]) /\
  view (esteps all trig 100 (boot 10 fresh) (h ++ [EDo [OCmd UKill]; ETick 1])) =
    Some ([Nxt 2; Nxt 3; Nxt 4; Cmp], false, SGone, [LTrig 1; LSpawn; LTrig 2; LTrig 3; LTrig 4; LKill]) /\
  (* unsubscribed before the first tick: no satellite is ever spawned *)
  view (esteps all trig 100 (boot 10 fresh) [ESub; EDo [OUnsub]; ETick 1; ETick 1]) =
    Some ([], false, SNone, [LUnsub]).
Proof.
  cbv zeta. split; [intros l; constructor|]. split; [intros x t l; repeat constructor|]. split.
  - repeat constructor; cbn; eauto.
  - vm_compute. auto.
Qed.

(** That every event triggered after the subscription is heard does not hold: those triggered
    before the first tick are not. *)
Theorem C61_early_refuted : exists h m, fair_acts h /\
  esteps all trig 100 (boot 10 fresh) h = Fine m /\ hd_error h = Some ESub /\
  In (LTrig 1) (g_log (m_world m)) /\ ~ In (Nxt 1) (g_told (m_world m)) /\ g_open (m_world m) = true.
Proof.
  exists [ESub; EDo [OCmd (UTrig 1)]; ETick 1]. eexists. split; [repeat constructor|]. split; [vm_compute; reflexivity|].
  split; [reflexivity|]. split; [now left|]. split; [intros []|reflexivity].
Qed.
Print Assumptions C61_early_refuted.

(** That the satellite is gone after the next tick does not hold if others cancel invocations:
    cancelling any of them, here 5, drops those waiting to be made. *)
Theorem C61_leak_refuted : exists h m m', 
  esteps all trig 100 (boot 10 fresh) h = Fine m /\ g_open (m_world m) = false /\
  In (EDo [OUnsub; OReq (QCancelInv 5)]) h /\
  esteps all trig 100 m [ETick 1; ETick 1] = Fine m' /\ g_sat (m_world m') = SLive /\ m_queue m' = [].
Proof.
  exists [ESub; ETick 1; EDo [OUnsub; OReq (QCancelInv 5)]]. eexists. eexists. split; [vm_compute; reflexivity|].
  split; [reflexivity|]. split; [cbn; auto|]. split; [vm_compute; reflexivity|]. split; reflexivity.
Qed.
Print Assumptions C61_leak_refuted.
