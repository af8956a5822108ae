(** Property C56, with destinations that call back: the task and a destination that
    unsubscribes in answer to a value. *)
From Verif Require Import Base SubscrModel SharedModel PollReModel PollReSpec PollRe.
Set Implicit Arguments.

Theorem C56_keyboard_unsubscribe : forall A E (D : dest A E) (d0 : dst D), leaves D ->
  forall h, exists s, polls (@keyboard_tick A E D) false (sh_new D d0) h = Fine s /\ heeded D d0 (sh_log s).
Proof. exact @keyboard_heeds. Qed.
Print Assumptions C56_keyboard_unsubscribe.

Theorem C56_resource_unsubscribe : forall A E (D : dest A E) (d0 : dst D), leaves D ->
  forall h, exists s, polls (@resource_tick A E D) false (sh_new D d0) h = Fine s /\ heeded D d0 (sh_log s).
Proof. exact @resource_heeds. Qed.
Print Assumptions C56_resource_unsubscribe.

(** Unsubscribes in answer to the value 2; closed when told to be. *)
Definition picky : dest nat nat :=
  {| dst := bool; react := fun d n => match n with Nxt 2 => (d, [Uns]) | Nxt _ => (d, []) | _ => (true, []) end; dclosed := fun d => d |}.
Definition told {D : dest nat nat} (o : outcome D) : list (ncall nat nat) := match o with Fine s => sh_log s | Panicked s => sh_log s end.

Example C56_unsubscribe_example : leaves picky /\
  told (polls (@keyboard_tick nat nat picky) false (sh_new picky false) [PTick [1; 2; 3]; PTick [4]]) = [Nxt 1; Nxt 2; Uns] /\
  told (polls (@resource_tick nat nat picky) false (sh_new picky false) [PTick [1]; PTick [2]; PTick [4]; PCall Uns]) = [Nxt 1; Nxt 2; Uns].
Proof. split; [|vm_compute; repeat split]. intros d [[|[|[|k]]]|e| |]; cbn; auto. Qed.

(** The message observable does not heed it: its task locks the destination and does not look
    at what was deferred meanwhile. *)
Theorem C56_message_unsubscribe_refuted : exists h s,
  polls (@message_tick nat nat picky) false (sh_new picky false) h = Fine s /\
  sh_closed s = true /\ ~ heeded picky false (sh_log s) /\ sh_log s = [Nxt 1; Nxt 2; Nxt 3; Nxt 4].
Proof.
  exists [PTick [1; 2; 3]; PTick [4]]. eexists. split; [vm_compute; reflexivity|]. split; [reflexivity|]. split; [|reflexivity].
  intros H. apply (H [Nxt 1] 2 [Nxt 3; Nxt 4] eq_refl (or_introl eq_refl) 3). cbn. auto.
Qed.
Print Assumptions C56_message_unsubscribe_refuted.
