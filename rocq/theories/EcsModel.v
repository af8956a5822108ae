(** Subscriptions made through Bevy's commands: the subscription entity, retries, and the two
    ways they end. No proofs in this file.

    Modelled on what the crate relies on of Bevy: commands are applied one by one, the commands
    they cause before the next one; despawning an entity runs the [on_remove] hooks of its
    components; the id of a despawned entity is not used again; [insert] on an entity that does
    not exist is an error, for which Bevy's default is to panic. *)
From Verif Require Import Base.
Set Implicit Arguments.

(** The observables an entity has, with the output types asked for: for each whether the
    subscription it returns is closed already. An event is consumed by the first one
    (crates/rx_bevy_common/src/observable/subscribe_observer_satellite.rs:67-75). *)
Definition observables := list bool.

(** A subscription entity: reserved ([UnfinishedSubscription], subscription/subscribe_event.rs:37, :52),
    or with a [SubscriptionComponent]. *)
Inductive place : Type := Nowhere | Reserved | Held | Despawned.
(** The destination: not yet known; in a [Subscribe] event that waits; subscribed; over
    (unsubscribed, or told of an end). *)
Inductive fate : Type := Unborn | Waiting | Open | Over.

Inductive act : Type :=
| ASubscribe (e : nat)                  (* commands.subscribe; the new subscription's number is the next one *)
| ADespawn (s : nat)                    (* commands.unsubscribe, which is try_despawn *)
| AHas (e : nat) (os : observables)     (* from now on the entity has these observables *)
| AEnd (s : nat)                        (* the source ends, or the destination closes itself *)
| AFirst                                (* execute_pending_retries, in the First schedule *)
| AClean                                (* clean_unfinished_subscriptions, in Last *)
| ATick                                 (* the executor for despawning, in Last *)
| AExit.                                (* unsubscribe_all_subscriptions *)

Inductive ev : Type :=
| TDo (a : act)
| TSpawn (s e : nat)     (* for a subscription to the entity e *)
| TSub (s : nat)         (* the observable's subscribe is called with its destination *)
| TPut (s : nat)         (* the component is inserted *)
| TLost (s : nat)        (* it cannot be: there is no such entity *)
| TOver (s : nat)        (* its destination is over *)
| TGone (s : nat).       (* the entity is despawned *)

Record world : Type := mkW {
  w_has : nat -> observables;
  w_place : nat -> place;
  w_fate : nat -> fate;
  w_next : nat;
  w_retry : list (nat * nat * nat);    (* SubscribesToRetry: subscription, entity, retries_remaining *)
  w_work : list nat;                   (* entities whose despawn is scheduled *)
  w_tr : list ev
}.
Definition init : world := mkW (fun _ => []) (fun _ => Nowhere) (fun _ => Unborn) 0 [] [] [].

Definition upd {X} (f : nat -> X) (i : nat) (x : X) : nat -> X := fun j => if j =? i then x else f j.
Definition log (e : ev) (w : world) := mkW (w_has w) (w_place w) (w_fate w) (w_next w) (w_retry w) (w_work w) (w_tr w ++ [e]).
Definition with_has f (w : world) := mkW f (w_place w) (w_fate w) (w_next w) (w_retry w) (w_work w) (w_tr w).
Definition with_place s p (w : world) := mkW (w_has w) (upd (w_place w) s p) (w_fate w) (w_next w) (w_retry w) (w_work w) (w_tr w).
Definition with_fate s p (w : world) := mkW (w_has w) (w_place w) (upd (w_fate w) s p) (w_next w) (w_retry w) (w_work w) (w_tr w).
Definition with_next n (w : world) := mkW (w_has w) (w_place w) (w_fate w) n (w_retry w) (w_work w) (w_tr w).
Definition with_retry l (w : world) := mkW (w_has w) (w_place w) (w_fate w) (w_next w) l (w_work w) (w_tr w).
Definition with_work l (w : world) := mkW (w_has w) (w_place w) (w_fate w) (w_next w) (w_retry w) l (w_tr w).

(** The subscription in the component closes: its destination is over, and the teardown of
    subscription_component.rs:37-49 [new_despawn_on_unsubscribe] schedules the despawn. *)
Definition close (s : nat) (w : world) : world :=
  match w_fate w s with
  | Open => with_work (w_work w ++ [s]) (log (TOver s) (with_fate s Over w))
  | _ => w
  end.
(** The destination in an event that is dropped, subscribe_event.rs:72-88. *)
Definition drop_event (s : nat) (w : world) : world := log (TOver s) (with_fate s Over w).

(** [try_despawn]; with the hook subscription_component.rs:52-61. *)
Definition despawn (s : nat) (w : world) : world :=
  match w_place w s with
  | Nowhere | Despawned => w
  | Reserved => log (TGone s) (with_place s Despawned w)
  | Held => close s (log (TGone s) (with_place s Despawned w))
  end.

(** subscribe_observer_satellite.rs:58-112 *)
Definition consume (s : nat) (closed : bool) (w : world) : world :=
  let w1 := log (TSub s) (with_fate s Open w) in
  if closed then despawn s (log (TOver s) (with_fate s Over w1))   (* :102-105 *)
  else match w_place w1 s with                                     (* :89-101 *)
       | Nowhere | Despawned => close s (log (TLost s) w1)         (* the component is dropped *)
       | _ => log (TPut s) (with_place s Held w1)
       end.

(** observable/command_subscribe.rs:80-103 [SubscribeCommand::apply], :39-50 [retry] *)
Definition subscribe (s e retries : nat) (w : world) : world :=
  match w_has w e with
  | closed :: _ => consume s closed w
  | [] => match retries with
          | S n => with_retry (w_retry w ++ [(s, e, n)]) w
          | O => drop_event s w
          end
  end.
Definition max_retries : nat := 3.   (* :16 *)

(** scheduler/subscribe_retry_plugin.rs:32-45: all are taken out before any is applied. *)
Definition retry_all (w : world) : world :=
  fold_left (fun w '(s, e, n) => subscribe s e n w) (w_retry w) (with_retry [] w).

Definition subscriptions (w : world) : list nat := seq 0 (w_next w).

Definition perform (a : act) (w : world) : world :=
  let w := log (TDo a) w in
  match a with
  | ASubscribe e =>                                                (* subscribe_event.rs:44-63 *)
      let s := w_next w in
      subscribe s e max_retries
        (log (TSpawn s e) (with_fate s Waiting (with_place s Reserved (with_next (S s) w))))
  | ADespawn s => despawn s w
  | AHas e os => with_has (upd (w_has w) e os) w
  | AEnd s => close s w
  | AFirst => retry_all w
  | AClean =>                                                      (* scheduler/rx_plugin.rs:36-47 *)
      fold_left (fun w s => match w_place w s with Reserved => despawn s w | _ => w end) (subscriptions w) w
  | ATick =>                                                       (* scheduler/work/work_despawn_entity.rs:24-36 *)
      fold_left (fun w s => despawn s w) (w_work w) (with_work [] w)
  | AExit =>                                                       (* rx_plugin.rs:49-58 *)
      let w1 := retry_all w in
      fold_left (fun w s => match w_place w s with Held => close s w | _ => w end) (subscriptions w1) w1
  end.
Definition run (h : list act) (w : world) : world := fold_left (fun w a => perform a w) h w.
