(** What flattening an observable of observables should do, from what happened alone. *)
From Verif Require Import Base SubscrModel CombModel HoModel.
Set Implicit Arguments.

Section Spec.
Variables A E : Type.
Variable down : list (ncall A E) -> bool.
Notation ev := (ev A E).

(** What the destination was told. *)
Definition outs (l : list ev) : list (ncall A E) :=
  flat_map (fun e => match e with TOut c => [c] | _ => [] end) l.
(** The destination is open: it was not told that it is over, and did not close itself. *)
Definition open (l : list ev) : Prop :=
  forall os c os', outs l = os ++ c :: os' -> (exists b, c = Nxt b) /\ down (os ++ [c]) = false.
(** Each event was right given what happened before it. *)
Definition always (good : list ev -> ev -> Prop) (l : list ev) : Prop :=
  forall p e s, l = p ++ e :: s -> good p e.

(** The inner observables are numbered as they arrive. *)
Definition arrivals (p : list ev) : nat :=
  length (filter (fun e => match e with TArrive _ => true | _ => false end) p).
Definition subscribed (i : nat) (p : list ev) : bool :=
  existsb (fun e => match e with TSub j => j =? i | _ => false end) p.
Definition completed (i : nat) (p : list ev) : bool :=
  existsb (fun e => match e with TIn j Cmp => j =? i | _ => false end) p.
Definition ended (i : nat) (p : list ev) : bool :=
  existsb (fun e => match e with TEnd j => j =? i | _ => false end) p.
Definition outer_completed (p : list ev) : bool :=
  existsb (fun e => match e with TUp Cmp => true | _ => false end) p.
Definition outer_unsubscribed (p : list ev) : bool :=
  existsb (fun e => match e with TUp Uns => true | _ => false end) p.

(** Those subscribed that are not over. *)
Definition active (i : nat) (p : list ev) : bool :=
  subscribed i p && negb (completed i p) && negb (ended i p).
Definition running (p : list ev) : nat :=
  length (filter (fun i => active i p) (seq 0 (arrivals p))).
(** The outer observable and all inner ones have completed. *)
Definition all_completed (p : list ev) : Prop :=
  outer_completed p = true /\ forall i, i < arrivals p -> completed i p = true.

(** What the destination must be told at once. *)
Definition owed (e : ev) : option (ncall A E) :=
  match e with
  | TIn _ (Nxt a) => Some (Nxt a)
  | TIn _ (Err x) => Some (Err x)
  | TUp (Err x) => Some (Err x)
  | _ => None
  end.
Definition paid (l : list ev) : Prop :=
  forall p e s c, l = p ++ e :: s -> open p -> owed e = Some c -> exists s', s = TOut c :: s'.
(** Once the subscription was unsubscribed, so was the destination. *)
Definition obeys (p : list ev) : Prop := outer_unsubscribed p = true -> ~ open p.
(** The destination is told nothing else, except that the result completes. *)
Definition relays (completes : list ev -> Prop) (p : list ev) (e : ev) : Prop :=
  match e with
  | TOut c => open p /\
      match c with
      | Cmp => completes p
      | Uns => outer_unsubscribed p = true
      | _ => exists q e', p = q ++ [e'] /\ owed e' = Some c
      end
  | _ => True
  end.

(** At most [limit] at a time. *)
Definition limited (limit : nat) (p : list ev) (e : ev) : Prop :=
  match e with TSub _ => open p -> running p < limit | _ => True end.
(** Only those that arrived, and none twice. *)
Definition once (p : list ev) (e : ev) : Prop :=
  match e with TSub i => i < arrivals p /\ subscribed i p = false | _ => True end.
(** In the order of arrival. *)
Definition in_order (p : list ev) (e : ev) : Prop :=
  match e with TSub i => open p -> forall j, j < i -> subscribed j p = true | _ => True end.
(** One after the other. *)
Definition one_by_one (p : list ev) (e : ev) : Prop :=
  match e with TIn i _ => open p -> forall j, j < i -> completed j p = true | _ => True end.
(** Nothing waits without need. *)
Definition prompt (limit : nat) (p : list ev) : Prop :=
  open p -> (forall i, i < arrivals p -> subscribed i p = false -> running p = limit) /\ ~ all_completed p.
(** After the end no inner observable is subscribed to, and those that were are unsubscribed. *)
Definition released (p : list ev) : Prop :=
  ~ open p -> forall i, subscribed i p = true -> ended i p = true.
Definition none_late (p : list ev) (e : ev) : Prop :=
  match e with TSub _ => open p | _ => True end.

(** Only one at a time. *)
Definition alone (p : list ev) (e : ev) : Prop :=
  match e with TSub _ => running p = 0 | _ => True end.
(** Only the latest is heard. *)
Definition heard (p : list ev) (e : ev) : Prop :=
  match e with TIn i _ => S i = arrivals p | _ => True end.
(** It is subscribed to as it arrives, or never; the one before it may be unsubscribed first. *)
Definition fresh (p : list ev) (e : ev) : Prop :=
  match e with
  | TSub i => exists q, p = q ++ [TArrive i] \/ exists j, p = q ++ [TArrive i; TEnd j]
  | _ => True
  end.
(** It is subscribed to as it arrives while no other is running, or never. *)
Definition idle (p : list ev) (e : ev) : Prop :=
  match e with TSub i => exists q, p = q ++ [TArrive i] /\ running q = 0 | _ => True end.
Definition taken (when : list ev -> Prop) (l : list ev) : Prop :=
  forall p i s, l = p ++ TArrive i :: s -> open p -> when p ->
  exists s', s = TSub i :: s' \/ exists j, s = TEnd j :: TSub i :: s'.
(** The outer observable and the latest inner one have completed. *)
Definition latest_completed (p : list ev) : Prop :=
  outer_completed p = true /\ forall i, S i = arrivals p -> completed i p = true.
(** The outer observable and all inner ones subscribed to have completed. *)
Definition taken_completed (p : list ev) : Prop :=
  outer_completed p = true /\ forall i, subscribed i p = true -> completed i p = true.
End Spec.

Section Histories.
Variables A E : Type.
Notation act := (act A E).
(** What the outer observable does. *)
Definition outer (h : list act) : list (ncall (list (ncall A E)) E) :=
  flat_map (fun a => match a with
                     | AArrive l => [Nxt l] | AErr x => [Err x] | ACmp => [Cmp] | AUns => [Uns]
                     | AInner _ _ => [] end) h.
(** No inner observable unsubscribes its subscriber without completing it. *)
Definition is_uns (c : ncall A E) : bool := match c with Uns => true | _ => false end.
Definition no_uns (h : list act) : bool :=
  forallb (fun a => match a with
                    | AArrive l => forallb (fun c => negb (is_uns c)) l
                    | AInner _ c => negb (is_uns c)
                    | _ => true end) h.
End Histories.
