(** The observers that hand what they are told to the Bevy world: EntityDestination and
    ResourceDestination. No proofs in this file.

    In [timed] (TimeModel.v) the "source" is everything that happens to the observer and
    what it looks at: [CUp (Nxt (inl c))] is a call of one of its methods, [CUp (Nxt (inr b))]
    says whether the entity (or resource) exists from now on, and [CUp Uns] that the
    subscription it is the destination of is unsubscribed. [CSub] is its construction. The
    "destination" is the world, which gets notifications. *)
From Verif Require Import Base SubscrModel SchedModel TimeModel.
Set Implicit Arguments.

(** [ObserverNotification] (rx_core_common/src/signals/notification_observer.rs:16). *)
Inductive notice (A E : Type) : Type :=
| NNext (a : A)
| NError (e : E)
| NComplete.
Arguments NNext {A E} a.
Arguments NError {A E} e.
Arguments NComplete {A E}.

Section Dest.
Variables A E F X : Type.
Notation N := (notice A E).
Notation W := (world (N + bool) N F bool N X).

(** Nothing ends this observer, so whatever was said can be followed by more. *)
Definition not_over (w : W) : W :=
  mkW (w_st w) (w_born w) (w_shut w) false (w_panic w) (w_tr w) (w_rs w).

(** rx_bevy_common/src/observer/entity_destination.rs:52-103 and resource_destination.rs:49-100:
    every method schedules a task under the observer's own cancellation id, and the task
    looks whether the entity or resource exists, then triggers the event on the entity
    or calls the writer. The trigger is a command, and the commands of a tick are applied in
    order after it; simplified: it counts as delivered when the command is given. The
    writer does not panic (a poisoned one would not be called any more). There is no
    [unsubscribe] and no teardown: nothing cancels the tasks. [s]: whether the entity
    exists to begin with. *)
Definition into_world (s : bool) : timed (N + bool) N F bool N X :=
  {| t_torn := false;
     t_new := s;
     t_sub := fun _ w => w;
     t_up := fun _ c w =>
       match c with
       | Nxt (inl n) => ask (QSched 0 KImmediate (KO n)) w
       | Nxt (inr b) => st b w
       | _ => not_over w
       end;
     t_run := fun tell n _ w => (n, true, if w_st w then tell (Nxt n) w else w) |}.
End Dest.
