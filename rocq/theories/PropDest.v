(** Property C60: EntityDestination and ResourceDestination. See PropTime.v for [syss] and
    traces, and DestModel.v for what the calls mean: [XUp (Nxt (inl n))] the observer is told
    [n], [XUp (Nxt (inr b))] the entity exists from now on or does not, [XUp Uns] the
    subscription is unsubscribed, [XOut (Nxt n)] the entity gets [n]. *)
From Verif Require Import Base SubscrModel SchedModel TimeModel TimeSpec PollSpec DestModel DestSpec Dest PropTime.
Set Implicit Arguments.

(** The entity is told what the observer was told, in order, in ticks, as long as it exists,
    and everything by the end of the tick; what is pending in a tick in which it does not exist
    is lost, and nothing is told twice. *)
Theorem C60_destination : forall A E F X (s0 : bool) (down : destination (notice A E) F X)
    (user : others (notice A E + bool) (notice A E) F X), stays user -> listens down -> forall fuel depth h m,
  syss (into_world A E F X s0) down user fuel (start (into_world A E F X s0) depth) h = Fine m ->
  let tr := w_tr (m_world m) in always (delivered s0) tr /\ sub (values tr) (signals tr).
Proof. exact into_world_ok. Qed.
Print Assumptions C60_destination.

(** If it exists all along, then after every tick it was told everything, also what is said
    after an error or completion. *)
Theorem C60_all : forall A E F X (s0 : bool) (down : destination (notice A E) F X)
    (user : others (notice A E + bool) (notice A E) F X), stays user -> listens down -> forall fuel depth h m,
  syss (into_world A E F X s0) down user fuel (start (into_world A E F X s0) depth) h = Fine m ->
  forall p r, w_tr (m_world m) = p ++ XEnd :: r -> lives s0 p -> values p = signals p.
Proof. exact into_world_all. Qed.
Print Assumptions C60_all.

Notation note_ := (notice nat nat).
Definition say (x : note_) : cmd (note_ + bool) nat nat := CUp (Nxt (inl x)).
Definition be (b : bool) : cmd (note_ + bool) nat nat := CUp (Nxt (inr b)).
(** A task that tells the observer more, within the tick. *)
Definition teller : others (note_ + bool) note_ nat nat := fun x _ _ => (x, true, [say (NNext x)]).

Example C60_example :
  let T := into_world nat nat nat nat true in
  stays teller /\ listens (@down0 note_) /\
  trace T teller [SDo [CSub; say (NNext 1); CReq (QSched 3 KImmediate 5); say NComplete]; STick 1; SDo [say (NNext 2)];
                  SDo [be false; say (NError 3)]; STick 1; SDo [be true; say (NNext 4)]; STick 1] =
    [XSub; XUp (Nxt (inl (NNext 1))); XUp (Nxt (inl NComplete)); XTick 1; XOut (Nxt (NNext 1)); XUp (Nxt (inl (NNext 5)));
     XOut (Nxt NComplete); XOut (Nxt (NNext 5)); XEnd; XUp (Nxt (inl (NNext 2))); XUp (Nxt (inr false));
     XUp (Nxt (inl (NError 3))); XTick 2; XEnd; XUp (Nxt (inr true)); XUp (Nxt (inl (NNext 4)));
     XTick 3; XOut (Nxt (NNext 4)); XEnd].
Proof.
  split; [intros x t l b [H|[]]; discriminate|]. split; [intros l; reflexivity|]. vm_compute. reflexivity.
Qed.

(** That nothing is told after the subscription was unsubscribed does not hold: what was said
    before is told in the next tick. *)
Theorem C60_late_refuted : exists h m p s,
  let T := into_world nat nat nat nat true in
  syss T down0 user0 100 (start T 10) h = Fine m /\
  w_tr (m_world m) = p ++ XUp Uns :: s /\ In (XOut (Nxt (NNext 1))) s.
Proof.
  exists [SDo [CSub; say (NNext 1); CUp Uns]; STick 1]. eexists. exists [XSub; XUp (Nxt (inl (NNext 1)))], [XTick 1; XOut (Nxt (NNext 1)); XEnd].
  split; [vm_compute; reflexivity|]. split; [reflexivity|]. simpl. auto.
Qed.
Print Assumptions C60_late_refuted.
