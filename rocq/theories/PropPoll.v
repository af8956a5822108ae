(** Property C56: the observables that look at the Bevy world in every tick (messages, the
    keyboard, a resource). See PropTime.v for [syss] and traces; the source's calls [XUp (Nxt a)]
    are operations on the world, [XUp Uns] is [unsubscribe] on the subscription. *)
From Coq Require Import Permutation.
From Verif Require Import Base SubscrModel SchedModel TimeModel TimeSpec PollModel PollSpec PollFacts PollMsg PropTime.
Set Implicit Arguments.

(** Messages: in order and each at most once; in every tick all that are there; and all there
    were, if there is a tick between any two updates. Unsubscribing is forwarded at once. *)
Theorem C56_messages : forall M E X (s0 : messages M) (down : destination M E X) (user : others (mop M) M E X),
  world_rests user -> forall fuel depth h m,
  syss (message E X (Some s0)) down user fuel (start (message E X (Some s0)) depth) h = Fine m ->
  let tr := w_tr (m_world m) in
  always (relayed s0 down) tr /\ sub (values tr) (written s0 tr) /\
  (regular s0 tr = true -> exists rest, written s0 tr = values tr ++ rest) /\
  answered down (@unsubscribes (mop M) M E) tr /\ w_panic (m_world m) = false.
Proof. exact @message_ok. Qed.
Print Assumptions C56_messages.

Definition w (k : nat) : cmd (mop nat) nat nat := CUp (Nxt (MWrite k)).
Definition u : cmd (mop nat) nat nat := CUp (Nxt MUpdate).
Definition ms1 : messages nat := mkMs 3 [1] [2].

(** Those that are there to begin with, too. *)
Example C56_messages_example :
  let h := [SDo [CSub]; STick 1; SDo [u; w 3]; STick 1; SDo [u]; STick 1; SDo [w 4; w 5; CUp Uns; w 6]; STick 1] in
  let tr := trace (message nat nat (Some ms1)) user0 h in
  world_rests (@user0 (mop nat) nat) /\ regular ms1 tr = true /\
  outs tr = [Nxt 1; Nxt 2; Nxt 3; Uns] /\ written ms1 tr = [1; 2; 3; 4; 5].
Proof. split; [intros ? ? ? ? []|]. vm_compute. repeat split. Qed.

(** Two updates between ticks: a message is never given. *)
Theorem C56_all_messages_refuted : exists h m,
  syss (message nat nat (Some ms1)) down0 user0 100 (start (message nat nat (Some ms1)) 10) h = Fine m /\
  let tr := w_tr (m_world m) in outs tr = [Nxt 1; Nxt 2; Nxt 4] /\ written ms1 tr = [1; 2; 3; 4].
Proof.
  exists [SDo [CSub]; STick 1; SDo [w 3; u; u; w 4]; STick 1]. eexists. vm_compute. repeat split.
Qed.
Print Assumptions C56_all_messages_refuted.

(** Keyboard: in every tick the keys that are down, or went down or up since the last clear,
    each once. *)
Theorem C56_keyboard : forall K E X (eqb : K -> K -> bool), (forall j k, eqb j k = true <-> j = k) ->
  forall order : list K -> list K, (forall l, Permutation (order l) l) -> forall mode (s0 : keys K),
  NoDup (ks_down s0) /\ NoDup (ks_went_down s0) /\ NoDup (ks_went_up s0) ->
  forall (down : destination K E X) (user : others (kop K) K E X), world_rests user -> forall fuel depth h m,
  syss (keyboard E X eqb order mode (Some s0)) down user fuel (start (keyboard E X eqb order mode (Some s0)) depth) h = Fine m ->
  let tr := w_tr (m_world m) in
  always (polled down (keys_due eqb s0 mode)) tr /\ answered down (@unsubscribes (kop K) K E) tr /\
  w_panic (m_world m) = false.
Proof. exact @keyboard_ok. Qed.
Print Assumptions C56_keyboard.

Definition pr (k : nat) : cmd (kop nat) nat nat := CUp (Nxt (KPress k)).
Definition rl (k : nat) : cmd (kop nat) nat nat := CUp (Nxt (KRelease k)).
Definition cl : cmd (kop nat) nat nat := CUp (Nxt KClear).

(** Without a clear between ticks a key is given again; pressed and released between ticks,
    in both other modes but not while pressed. *)
Example C56_keyboard_example :
  let h := [SDo [CSub; pr 1; pr 2; pr 1]; STick 1; STick 1; SDo [cl; rl 1; pr 3; rl 3]; STick 1; SDo [cl]; STick 1] in
  let tr mode := trace (keyboard nat nat Nat.eqb (fun l => l) mode (Some (mkKeys [] [] []))) user0 h in
  outs (tr JustPressed) = [Nxt 1; Nxt 2; Nxt 1; Nxt 2; Nxt 3] /\
  outs (tr WhilePressed) = [Nxt 1; Nxt 2; Nxt 1; Nxt 2; Nxt 2; Nxt 2] /\
  outs (tr JustReleased) = [Nxt 1; Nxt 3].
Proof. vm_compute. repeat split. Qed.

(** A resource: a value when the world shows it as changed, or when it exists and did not in
    the tick before (or this is the first), as the options say. *)
Theorem C56_resource : forall R B E X (reader : R -> B) on_added on_changed v0 (down : destination B E X)
    (user : others (bool * option R) B E X), world_rests user -> forall fuel depth h m,
  syss (resource E X reader on_added on_changed v0) down user fuel (start (resource E X reader on_added on_changed v0) depth) h = Fine m ->
  let tr := w_tr (m_world m) in
  always (polled down (resource_due reader on_added on_changed v0)) tr /\
  answered down (@unsubscribes (bool * option R) B E) tr /\ w_panic (m_world m) = false.
Proof. exact @resource_ok. Qed.
Print Assumptions C56_resource.

Definition see (c : bool) (r : option nat) : cmd (bool * option nat) nat nat := CUp (Nxt (c, r)).
Example C56_resource_example :
  let h := [SDo [CSub]; STick 1; SDo [see true (Some 5)]; STick 1; SDo [see false (Some 5)]; STick 1;
            SDo [see true (Some 6)]; STick 1; SDo [see false None]; STick 1; SDo [see true (Some 7)]; STick 1] in
  let tr a c := trace (resource nat nat (fun r : nat => 10 + r) a c (false, None)) user0 h in
  outs (tr true true) = [Nxt 15; Nxt 16; Nxt 17] /\ outs (tr true false) = [Nxt 15; Nxt 17] /\
  outs (tr false true) = [Nxt 16].
Proof. vm_compute. repeat split. Qed.

(** Removed and added between two ticks: not told as added. *)
Theorem C56_added_refuted : exists h m,
  syss (resource nat nat (fun r : nat => r) true false (false, None)) down0 user0 100
    (start (resource nat nat (fun r : nat => r) true false (false, None)) 10) h = Fine m /\
  exists p1 p2, w_tr (m_world m) = p1 ++ XUp (Nxt (false, None)) :: XUp (Nxt (true, Some 7)) :: p2 /\ In XEnd p2 /\ outs p2 = [].
Proof.
  exists [SDo [CSub; see true (Some 5)]; STick 1; SDo [see false None; see true (Some 7)]; STick 1].
  eexists. split; [vm_compute; reflexivity|].
  exists [XSub; XUp (Nxt (true, Some 5)); XTick 1; XOut (Nxt 5); XEnd]. eexists. split; [vm_compute; reflexivity|]. cbn. auto.
Qed.
Print Assumptions C56_added_refuted.

(** Without the resource that Bevy's plugins add, the task panics. *)
Theorem C56_missing_refuted :
  (exists h m, syss (@message nat nat nat None) down0 user0 100 (start (@message nat nat nat None) 10) h = Fine m /\ w_panic (m_world m) = true) /\
  (exists h m, syss (@keyboard nat nat nat Nat.eqb (fun l => l) JustPressed None) down0 user0 100
     (start (@keyboard nat nat nat Nat.eqb (fun l => l) JustPressed None) 10) h = Fine m /\ w_panic (m_world m) = true).
Proof. split; exists [SDo [CSub]; STick 1]; eexists; vm_compute; repeat split. Qed.
Print Assumptions C56_missing_refuted.
