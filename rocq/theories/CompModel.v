(** Observables and subjects as components of entities: what their hooks spawn beside them, what
    the two kinds of satellites do on a signal and on a subscription, and what is left when the
    component or the entity goes. No proofs in this file.

    Relied on of Bevy (its code is not in /repo): the commands a hook queues are applied before
    the next command; inserting a component over one of the same type drops the old value and
    runs [on_insert], not [on_remove]; despawning runs [on_remove] for every component, and
    despawns the observers that watch nothing but that entity; the observers of an event run in no
    particular order; a one-to-one relationship that gets a new source keeps that one only, and
    the old source loses the relationship component but stays; a collection of a relationship
    that is emptied is removed; what is inserted on an entity that does not exist is an error.

    Simplified: a subject is a number (what it does with what is pushed into it is the subject
    models' matter), so is a value with its kind of notification, and a destination; the entity
    reserved for a subscription is EcsModel.v's matter. *)
From Verif Require Import Base.
Set Implicit Arguments.

(** The component types are numbers [k]. [outs k]: the pair of types that comes out, [Out] and
    [OutError]. [ins k]: the pair of types that goes in if the component is a
    [SubjectComponent] (crates/rx_bevy_common/src/subject/subject_component.rs:39-55), none if it is
    an [ObservableComponent] (observable/observable_component.rs:10-23). *)
Inductive op : Type :=
| OInsert (e k j : nat)    (* insert, on the entity e, a component of type k around the observable j *)
| ORemove (e k : nat)
| ODespawn (e : nat)
| OSignal (e ty v : nat)   (* trigger RxSignal on e with types ty *)
| OSub (e ty d : nat).     (* commands.subscribe to e with the destination d of types ty *)

Inductive ev : Type :=
| TOp (o : op)
| TPush (e k j v : nat)      (* the subject j is pushed v *)
| TSub (e k j d : nat)       (* the observable j is subscribed to with d *)
| TConsumed (e k d : nat)    (* SubscribeError::EventAlreadyConsumed *)
| TNot (e k d : nat)         (* SubscribeError::NotAnObservable; d was taken out and is dropped *)
| TWait (d : nat)            (* the command is to be tried again *)
| TUnsub (e k j : nat)       (* the subject j is unsubscribed *)
| TFree (e k j : nat)        (* the observable is dropped with its component *)
| TDrop (e k j : nat)        (* the observable or subject is dropped, overwritten *)
| TFail (e k j : nat).       (* no such entity *)

(** A satellite: an entity with an [Observer] of one entity, for [RxSignal]
    (subject/signal_observer_satellite.rs:19-52) or for [Subscribe]
    (observable/subscribe_observer_satellite.rs:23-56). *)
Record sat : Type := mkSat { s_id : nat; s_on : nat; s_kind : nat; s_signal : bool }.

Record world : Type := mkW {
  w_comps : list (nat * nat * nat);           (* entity, type, observable *)
  w_sats : list sat;
  w_ref : nat -> nat -> bool -> option nat;   (* SignalObserverRef, SubscribeObserverRef *)
  w_outputs : nat -> nat -> bool;             (* ObservableOutputs *)
  w_dead : nat -> bool;
  w_next : nat;
  w_tr : list ev
}.
Definition init : world := mkW [] [] (fun _ _ _ => None) (fun _ _ => false) (fun _ => false) 0 [].

Definition upd2 (f : nat -> nat -> bool) (a b : nat) (x : bool) : nat -> nat -> bool :=
  fun a' b' => if (a' =? a) && (b' =? b) then x else f a' b'.
Definition upd3 (f : nat -> nat -> bool -> option nat) (a b : nat) (c : bool) (x : option nat) :=
  fun a' b' c' => if (a' =? a) && (b' =? b) && eqb c' c then x else f a' b' c'.

Definition log (l : list ev) (w : world) : world :=
  mkW (w_comps w) (w_sats w) (w_ref w) (w_outputs w) (w_dead w) (w_next w) (w_tr w ++ l).

Fixpoint lookup (e k : nat) (l : list (nat * nat * nat)) : option nat :=
  match l with
  | [] => None
  | (e', k', j) :: r => if (e' =? e) && (k' =? k) then Some j else lookup e k r
  end.
Definition at_key (e k : nat) (c : nat * nat * nat) : bool := let '(e', k', _) := c in (e' =? e) && (k' =? k).
Definition at_entity (e : nat) (c : nat * nat * nat) : bool := let '(e', _, _) := c in e' =? e.
Definition without (e k : nat) (l : list (nat * nat * nat)) := filter (fun c => negb (at_key e k c)) l.

Section World.
  Variable ins : nat -> option nat.
  Variable outs : nat -> nat.
  (** The order in which Bevy runs the observers of the n-th event. *)
  Variable order : nat -> list sat -> list sat.

  (** Spawn a satellite: its relationship to [e] takes the place of the one before. *)
  Definition spawn (e k : nat) (b : bool) (w : world) : world :=
    mkW (w_comps w) (w_sats w ++ [mkSat (w_next w) e k b]) (upd3 (w_ref w) e k b (Some (w_next w)))
        (w_outputs w) (w_dead w) (S (w_next w)) (w_tr w).

  (** subject_component.rs:113-127 [subject_on_insert], observable_component.rs:58-67 *)
  Definition on_insert (e k : nat) (w : world) : world :=
    match ins k with
    | Some _ => spawn e k true (spawn e k false w)
    | None => spawn e k false w
    end.

  Definition insert (e k j : nat) (w : world) : world :=
    if w_dead w e then log [TFail e k j] w
    else
      let dropped := match lookup e k (w_comps w) with Some i => [TDrop e k i] | None => [] end in
      on_insert e k
        (mkW (without e k (w_comps w) ++ [(e, k, j)]) (w_sats w) (w_ref w)
             (upd2 (w_outputs w) e (outs k) true)        (* subject_component.rs:46 [require] *)
             (w_dead w) (w_next w) (w_tr w ++ dropped)).

  (** [try_despawn] of the satellite the relationship leads to, and the removal of the reference. *)
  Definition despawn_ref (e k : nat) (b : bool) (w : world) : world :=
    match w_ref w e k b with
    | Some i =>
        mkW (w_comps w) (filter (fun s => negb (s_id s =? i)) (w_sats w)) (upd3 (w_ref w) e k b None)
            (w_outputs w) (w_dead w) (w_next w) (w_tr w)
    | None => w
    end.

  Definition ended (c : nat * nat * nat) : ev :=
    let '(e, k, j) := c in
    match ins k with
    | Some _ => TUnsub e k j   (* subject_component.rs:161-165 *)
    | None => TFree e k j
    end.

  (** subject_component.rs:130-166 [subject_on_remove], observable_component.rs:70-89 *)
  Definition remove (e k : nat) (w : world) : world :=
    match lookup e k (w_comps w) with
    | None => w
    | Some j =>
        let w1 := log [ended (e, k, j)] w in
        let w2 := despawn_ref e k false w1 in                                    (* :146-148 *)
        let w3 := match ins k with Some _ => despawn_ref e k true w2 | None => w2 end in  (* :150-152 *)
        mkW (without e k (w_comps w3)) (w_sats w3) (w_ref w3)
            (upd2 (w_outputs w3) e (outs k) false)                               (* :159 *)
            (w_dead w3) (w_next w3) (w_tr w3)
    end.

  Definition despawn (e : nat) (w : world) : world :=
    mkW (filter (fun c => negb (at_entity e c)) (w_comps w))
        (filter (fun s => negb (s_on s =? e)) (w_sats w))
        (fun e' k b => if e' =? e then None else w_ref w e' k b)
        (fun e' ty => if e' =? e then false else w_outputs w e' ty)
        (fun e' => if e' =? e then true else w_dead w e')
        (w_next w)
        (w_tr w ++ map ended (filter (at_entity e) (w_comps w))).

  (** signal_observer_satellite.rs:54-68 [push_signal_observer] *)
  Definition push_signal (e v : nat) (w : world) (s : sat) : list ev :=
    match lookup e (s_kind s) (w_comps w) with
    | Some j => [TPush e (s_kind s) j v]
    | None => []
    end.
  Definition hears_signal (e ty : nat) (s : sat) : bool :=
    s_signal s && (s_on s =? e) && match ins (s_kind s) with Some t => t =? ty | None => false end.

  (** subscribe_observer_satellite.rs:58-112, the first observer and those after it *)
  Definition first_subscribe (e d : nat) (w : world) (s : sat) : ev :=
    match lookup e (s_kind s) (w_comps w) with
    | Some j => TSub e (s_kind s) j d     (* :85 *)
    | None => TNot e (s_kind s) d         (* :77-83 *)
    end.
  Definition later_subscribe (e d : nat) (s : sat) : ev := TConsumed e (s_kind s) d.   (* :69-75 *)
  Definition hears_subscribe (e ty : nat) (s : sat) : bool :=
    negb (s_signal s) && (s_on s =? e) && (outs (s_kind s) =? ty).

  (** observable/command_subscribe.rs:80-103: [ErasedSubscribeObservers] is there as long as a
      satellite for [Subscribe] with these types is, for it is related by
      [ErasedSubscribeObserverOf] as well (subscribe_observer_satellite.rs:50). *)
  Definition subscribe (d : nat) (e : nat) (l : list sat) (w : world) : list ev :=
    match l with
    | [] => [TWait d]
    | s :: r => first_subscribe e d w s :: map (later_subscribe e d) r
    end.

  Definition perform (n : nat) (o : op) (w0 : world) : world :=
    let w := log [TOp o] w0 in
    match o with
    | OInsert e k j => insert e k j w
    | ORemove e k => remove e k w
    | ODespawn e => despawn e w
    | OSignal e ty v => log (flat_map (push_signal e v w) (order n (filter (hears_signal e ty) (w_sats w)))) w
    | OSub e ty d => log (subscribe d e (order n (filter (hears_subscribe e ty) (w_sats w))) w) w
    end.

  (** The history has the newest first. *)
  Fixpoint run (h : list op) : world :=
    match h with
    | [] => init
    | o :: h' => perform (length h') o (run h')
    end.
End World.
