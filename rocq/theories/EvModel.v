(** EventObservable and the way it, and ProxyObservable, hold an entity of the Bevy world: a task
    spawns it and leaves another task to be invoked that despawns it.
    crates/rx_bevy_observable_event/src, crates/rx_bevy_observable_proxy/src. No proofs in this file. *)
From Verif Require Import Base SubscrModel SchedModel.
Set Implicit Arguments.

Section Ev.
(** [A]: the events; [X]: the closures of other tasks. The observable's ids for
    cancellation and invocation are both 0 (event_subscription.rs:45-46). *)
Variables A X : Type.
Notation call := (ncall A Empty_set).

(** event_subscription.rs:50-75, work_despawn_entity.rs:24-35, and those of others. *)
Inductive clos : Type := KSpawn | KDespawn | KOther (x : X).
Notation K := clos.

(** What others do to the world: trigger an event on the observed entity, despawn it, unsubscribe. *)
Inductive ucmd : Type := UTrig (a : A) | UKill | UUnsub.
(** The queue of Bevy commands. *)
Inductive cmd : Type := CSpawn | CDrop | CUser (u : ucmd).

(** The entity spawned by the task, the "satellite", with the Bevy observer. *)
Inductive sat : Type := SNone | SLive | SGone.

(** What happened: the satellite was spawned, an event was triggered on the entity or it was
    despawned (while it exists), the subscription was unsubscribed from outside. *)
Inductive lev : Type := LSpawn | LTrig (a : A) | LKill | LUnsub.

Record world : Type := mkWorld {
  g_sub : bool;              (* has been subscribed to *)
  g_alive : bool;            (* the observed entity exists *)
  g_cmds : list cmd;
  g_sat : sat;
  g_told : list call;        (* what the destination was told *)
  g_open : bool;             (* it is not closed *)
  g_spawned : bool;          (* the first task has run *)
  g_dropped : bool;          (* the second one has run *)
  g_log : list lev
}.
Notation G := world.
Definition fresh : G := mkWorld false true [] SNone [] true false false [].

Definition with_sub (g : G) := mkWorld true (g_alive g) (g_cmds g) (g_sat g) (g_told g) (g_open g) (g_spawned g) (g_dropped g) (g_log g).
Definition with_alive (g : G) v := mkWorld (g_sub g) v (g_cmds g) (g_sat g) (g_told g) (g_open g) (g_spawned g) (g_dropped g) (g_log g).
Definition with_cmds (g : G) v := mkWorld (g_sub g) (g_alive g) v (g_sat g) (g_told g) (g_open g) (g_spawned g) (g_dropped g) (g_log g).
Definition with_sat (g : G) v := mkWorld (g_sub g) (g_alive g) (g_cmds g) v (g_told g) (g_open g) (g_spawned g) (g_dropped g) (g_log g).
Definition with_told (g : G) v o := mkWorld (g_sub g) (g_alive g) (g_cmds g) (g_sat g) v o (g_spawned g) (g_dropped g) (g_log g).
Definition with_tasks (g : G) s d := mkWorld (g_sub g) (g_alive g) (g_cmds g) (g_sat g) (g_told g) (g_open g) s d (g_log g).
Definition note (g : G) e := mkWorld (g_sub g) (g_alive g) (g_cmds g) (g_sat g) (g_told g) (g_open g) (g_spawned g) (g_dropped g) (g_log g ++ [e]).
Definition push (g : G) c := with_cmds g (g_cmds g ++ [c]).

(** The destination: whether it closes itself, and what it asks of the scheduler, having been
    told this much. It is behind a SharedSubscriber (event_subscription.rs:39); it does not call back. *)
Variable down : list call -> bool * list (req K).
(** The other tasks, which may look at what happened. *)
Inductive oact : Type :=
| OCmd (u : ucmd)        (* give a command *)
| OUnsub                 (* unsubscribe at once *)
| OReq (r : req K).      (* use the scheduler *)
Variable user : X -> nat -> list lev -> X * bool * list oact.

Definition is_end (c : call) : bool := match c with Nxt _ => false | _ => true end.
(** The teardown of the destination: teardown.rs:84-96, event_subscription.rs:78-82. *)
Definition teardown : list (req K) := [QInvoke 0; QCancel 0].
Definition tell (c : call) (g : G) : G * list (req K) :=
  if g_open g then
    let l := g_told g ++ [c] in
    let closes := is_end c || fst (down l) in
    (with_told g l (negb closes), snd (down l) ++ if closes then teardown else [])
  else (g, []).
(** Unsubscribing the subscription, or dropping it: the destination is unsubscribed. *)
Definition unsub (g : G) : G * list (req K) :=
  if g_sub g && g_open g then (with_told (note g LUnsub) (g_told g) false, teardown) else (g, []).

(** A command is applied.
    - [CSpawn], event_subscription.rs:52-65: the satellite observes the entity. If that does not exist
      any more, Bevy takes the relationship off again, and so runs the teardown (subscription_satellite.rs:50-63),
      which completes the destination.
    - [CDrop], work_despawn_entity.rs:29-33: likewise on despawning the satellite.
    - the others: event_forwarder_observer_system.rs:13-16; the despawning of the observed entity takes
      the relationship off the satellite. *)
Definition apply (c : cmd) (g : G) : G * list (req K) :=
  match c with
  | CSpawn =>
      let g1 := note (with_sat g SLive) LSpawn in
      if g_alive g then (g1, []) else tell Cmp g1
  | CDrop =>
      match g_sat g with SLive => tell Cmp (with_sat g SGone) | _ => (g, []) end
  | CUser (UTrig a) =>
      if g_alive g then
        match g_sat g with SLive => tell (Nxt a) (note g (LTrig a)) | _ => (note g (LTrig a), []) end
      else (g, [])
  | CUser UKill =>
      if g_alive g then
        let g1 := note (with_alive g false) LKill in
        match g_sat g with SLive => tell Cmp g1 | _ => (g1, []) end
      else (g, [])
  | CUser UUnsub => unsub g
  end.
Fixpoint apply_all (l : list cmd) (g : G) : G * list (req K) :=
  match l with
  | [] => (g, [])
  | c :: l' => let '(g1, r1) := apply c g in let '(g2, r2) := apply_all l' g1 in (g2, r1 ++ r2)
  end.

Definition one (o : oact) (g : G) : G * list (req K) :=
  match o with
  | OCmd u => (push g (CUser u), [])
  | OUnsub => unsub g
  | OReq r => (g, [r])
  end.
Fixpoint many (l : list oact) (g : G) : G * list (req K) :=
  match l with
  | [] => (g, [])
  | o :: l' => let '(g1, r1) := one o g in let '(g2, r2) := many l' g1 in (g2, r1 ++ r2)
  end.

(** The closures. *)
Definition run (k : K) (t : nat) (g : G) : K * bool * G * list (req K) :=
  match k with
  | KSpawn => (KSpawn, true, with_tasks (push g CSpawn) true (g_dropped g), [QAddInv 0 KInvoked KDespawn])
  | KDespawn => (KDespawn, true, with_tasks (push g CDrop) (g_spawned g) true, [])
  | KOther x => let '(x', done, l) := user x t (g_log g) in
                let '(g', rs) := many l g in (KOther x', done, g', rs)
  end.

Notation mach := (mach K G).
(** The commands given in a tick or by a system are applied after it, in order
    (rx_scheduler_plugin.rs:83-96 is an exclusive system). *)
Definition flush (m : mach) : mach :=
  let '(g, rs) := apply_all (g_cmds (m_world m)) (with_cmds (m_world m) []) in
  performs (set_world m g) rs.

Inductive act : Type :=
| ESub                        (* the observable is subscribed to, once: event_subscription.rs:34-84 *)
| EDo (l : list oact)         (* others do something *)
| ETick (d : nat)
| ETickTo (t : nat).

Definition estep (fuel : nat) (m : mach) (a : act) : outcome K G :=
  match a with
  | ESub => if g_sub (m_world m) then Fine m
            else Fine (perform (set_world m (with_sub (m_world m))) (QSched 0 KImmediate KSpawn))
  | EDo l => let '(g, rs) := many l (m_world m) in Fine (flush (performs (set_world m g) rs))
  | ETick d => match tick run fuel d m with Fine m' => Fine (flush m') | o => o end
  | ETickTo t => match tick_to run fuel t m with Fine m' => Fine (flush m') | o => o end
  end.
Fixpoint esteps (fuel : nat) (m : mach) (h : list act) : outcome K G :=
  match h with
  | [] => Fine m
  | a :: h' => match estep fuel m a with Fine m' => esteps fuel m' h' | o => o end
  end.
End Ev.
Arguments KSpawn {X}.
Arguments KDespawn {X}.
Arguments KOther {X} x.
Arguments UKill {A}.
Arguments UUnsub {A}.
Arguments CSpawn {A}.
Arguments CDrop {A}.
Arguments LSpawn {A}.
Arguments LKill {A}.
Arguments LUnsub {A}.
Arguments OCmd {A X} u.
Arguments OUnsub {A X}.
Arguments OReq {A X} r.
Arguments ESub {A X}.
Arguments EDo {A X} l.
Arguments ETick {A X} d.
Arguments ETickTo {A X} t.
Arguments fresh {A}.
