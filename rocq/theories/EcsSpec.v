(** What subscriptions made through commands have to do, from what happened alone. *)
From Verif Require Import Base EcsModel.
Set Implicit Arguments.

(** [count f l]: how often. *)
Definition count {X} (f : X -> bool) (l : list X) : nat := length (filter f l).
Definition spawned (s : nat) (l : list ev) : bool := existsb (fun x => match x with TSpawn i _ => i =? s | _ => false end) l.
Definition subscribed (s : nat) (l : list ev) : bool := existsb (fun x => match x with TSub i => i =? s | _ => false end) l.
Definition attached (s : nat) (l : list ev) : bool := existsb (fun x => match x with TPut i => i =? s | _ => false end) l.
Definition lost (s : nat) (l : list ev) : bool := existsb (fun x => match x with TLost i => i =? s | _ => false end) l.
Definition over (s : nat) (l : list ev) : bool := existsb (fun x => match x with TOver i => i =? s | _ => false end) l.
Definition gone (s : nat) (l : list ev) : bool := existsb (fun x => match x with TGone i => i =? s | _ => false end) l.
Definition always (good : list ev -> ev -> Prop) (l : list ev) : Prop := forall p e s, l = p ++ e :: s -> good p e.

(** Everything happens at most once to a subscription, and in order. *)
Definition orderly (p : list ev) (e : ev) : Prop :=
  match e with
  | TSpawn s _ => spawned s p = false
  | TSub s => spawned s p = true /\ subscribed s p = false /\ over s p = false
  | TPut s => subscribed s p = true /\ attached s p = false /\ over s p = false /\ gone s p = false
  | TLost s => subscribed s p = true /\ attached s p = false /\ gone s p = true
  | TOver s => spawned s p = true /\ over s p = false
  | TGone s => spawned s p = true /\ gone s p = false
  | TDo _ => True
  end.

(** Between two actions: a destination that is subscribed is in a component on an entity. *)
Definition reachable (l : list ev) : Prop := forall s,
  subscribed s l = true -> over s l = false -> attached s l = true /\ gone s l = false.
(** So where an entity with a component is despawned, the destination is over. *)
Definition unsubscribed (l : list ev) : Prop := forall s, attached s l = true -> gone s l = true -> over s l = true.
(** After the executor has run, the entity of a subscription that is over is gone. *)
Definition tidy (l : list ev) : Prop := forall s, over s l = true -> attached s l = true -> gone s l = true.
(** After the clean up, an entity there is has a component. *)
Definition clean (l : list ev) : Prop := forall s, spawned s l = true -> gone s l = false -> attached s l = true.

(** The runs of the First schedule since the subscription was made. *)
Fixpoint firsts (s : nat) (l : list ev) : nat :=
  match l with
  | [] => 0
  | TSpawn i _ :: l' => if i =? s then count (fun x => match x with TDo AFirst => true | _ => false end) l' else firsts s l'
  | _ :: l' => firsts s l'
  end.
(** It is decided within three of them. *)
Definition decided (l : list ev) : Prop := forall s, spawned s l = true -> 3 <= firsts s l ->
  subscribed s l = true \/ over s l = true.

(** The clean ups since the subscription was made. *)
Fixpoint cleans (s : nat) (l : list ev) : nat :=
  match l with
  | [] => 0
  | TSpawn i _ :: l' => if i =? s then count (fun x => match x with TDo AClean => true | _ => false end) l' else cleans s l'
  | _ :: l' => cleans s l'
  end.
(** Only in the frame in which it was made is a subscription attached to its entity. *)
Definition same_frame (p : list ev) (e : ev) : Prop :=
  match e with TPut s => cleans s p = 0 | _ => True end.

(** The observables an entity has. *)
Fixpoint has_now (e : nat) (l : list ev) (os : observables) : observables :=
  match l with
  | [] => os
  | TDo (AHas i os') :: l' => has_now e l' (if i =? e then os' else os)
  | _ :: l' => has_now e l' os
  end.
(** How many subscriptions were made. *)
Definition made (l : list ev) : nat := count (fun x => match x with TSpawn _ _ => true | _ => false end) l.
(** What follows a subscribe command at once. *)
Definition at_once (s : nat) (os : observables) : list ev :=
  match os with
  | [] => []
  | false :: _ => [TSub s; TPut s]
  | true :: _ => [TSub s; TOver s; TGone s]
  end.

(** A frame of the application: what is done in it, between the First schedule and the Last. *)
Definition frame (h : list act) : list act := AFirst :: h ++ [AClean; ATick].
(** What was unsubscribed is not subscribed afterwards. *)
Definition unless_gone (p : list ev) (e : ev) : Prop :=
  match e with TSub s => gone s p = false | _ => True end.
