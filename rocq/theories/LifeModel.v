(** Life-cycle flags, notifications as values, and the bounded notification queue. No proofs
    in this file. *)
From Coq Require Import NArith.
From Verif Require Import Base SubscrModel.
Set Implicit Arguments.

(** *** SubscriberState, crates/rx_core_common/src/subscribers/subscriber_state.rs. The flags are
    bits of a byte, :6-12. *)
Definition WAITING : N := 1.
Definition PRIMED : N := 2.
Definition COMPLETED : N := 4.
Definition ERRORED : N := 8.
Definition UNSUBSCRIBED : N := 16.
Definition contains (s f : N) : bool := N.eqb (N.land s f) f.
Definition remove (s f : N) : N := N.ldiff s f.
Definition insert (s f : N) : N := N.lor s f.

Definition fresh : N := WAITING.                                      (* :15-20 *)
Definition is_waiting (s : N) : bool := contains s WAITING.           (* :41 *)
Definition is_primed (s : N) : bool := contains s PRIMED.             (* :49 *)
Definition is_completed (s : N) : bool := contains s COMPLETED.       (* :59 *)
Definition is_errored (s : N) : bool := contains s ERRORED.           (* :75 *)
Definition is_unsubscribed (s : N) : bool := contains s UNSUBSCRIBED. (* :85 *)
Definition is_finished (s : N) : bool := is_completed s || is_errored s.       (* :102 *)
Definition is_closed (s : N) : bool := is_unsubscribed s || is_finished s.     (* :94 *)
Definition is_completed_but_not_primed (s : N) : bool := is_completed s && negb (is_primed s).      (* :65 *)
Definition is_closed_but_primed (s : N) : bool := is_closed s && is_primed s.                       (* :109 *)
Definition is_closed_but_not_primed (s : N) : bool := is_closed s && negb (is_primed s).            (* :117 *)
Definition is_closed_but_not_completed (s : N) : bool :=                                            (* :127 *)
  (is_unsubscribed s || is_errored s) && negb (is_completed s).
Definition is_closed_but_not_errored (s : N) : bool :=                                              (* :132 *)
  (is_unsubscribed s || is_completed s) && negb (is_errored s).

(** The changes; [None] is the panic of a [debug_assert]. *)
Definition mark (f s : N) : N := insert (remove s WAITING) f.
Definition set_next (s : N) : option N := if is_closed s then None else Some (mark PRIMED s).          (* :145 *)
Definition set_complete (s : N) : option N := if is_closed s then None else Some (mark COMPLETED s).   (* :159 *)
Definition set_error (s : N) : option N := if is_closed s then None else Some (mark ERRORED s).        (* :173 *)
Definition set_unsubscribe (s : N) : option N :=                                                       (* :188 *)
  if is_unsubscribed s then None else Some (mark UNSUBSCRIBED s).
Definition set_unsubscribe_if_not_already (s : N) : N := mark UNSUBSCRIBED s.                          (* :212 *)

Section Notification.
Variables A E : Type.

Definition update_with_notification (s : N) (n : ncall A E) : option N :=                              (* :220-233 *)
  match n with
  | Uns => set_unsubscribe s
  | Cmp => set_complete s
  | Err _ => set_error s
  | Nxt _ => set_next s
  end.
Definition notification_matches_state (s : N) (n : ncall A E) : bool :=                                (* :244-258 *)
  match n with
  | Uns => is_unsubscribed s
  | Cmp => is_completed s
  | Err _ => is_errored s
  | Nxt _ => is_primed s
  end.
Definition update_would_be_invalid (s : N) (n : ncall A E) : bool :=                                   (* :280-294 *)
  match n with
  | Uns => is_unsubscribed s
  | _ => is_closed s
  end.

(** What can be done to it: a notification, or [unsubscribe_if_not_already]. *)
Inductive change : Type := Upd (n : ncall A E) | Ensure.
Definition apply_change (s : N) (c : change) : option N :=
  match c with Upd n => update_with_notification s n | Ensure => Some (set_unsubscribe_if_not_already s) end.
Fixpoint apply_changes (s : N) (cs : list change) : option N :=
  match cs with
  | [] => Some s
  | c :: cs' => match apply_change s c with Some s' => apply_changes s' cs' | None => None end
  end.

(** *** Notifications, crates/rx_core_common/src/signals. [ncall] is [SubscriberNotification],
    [notif] is [ObserverNotification]. *)
Inductive terminal : Type := TError (e : E) | TComplete.              (* notification_observer_terminal.rs:17-23 *)
Inductive subscription_notif : Type := SUnsubscribe.                  (* notification_subscription.rs:15-17 *)

Definition is_terminal (n : ncall A E) : bool :=                      (* notification_subscriber.rs:36 *)
  match n with Cmp | Err _ => true | _ => false end.
Definition is_closing (n : ncall A E) : bool :=                       (* notification_subscriber.rs:44 *)
  is_terminal n || match n with Uns => true | _ => false end.

Definition terminal_to_observer (t : terminal) : notif A E :=         (* notification_observer.rs:31-36 *)
  match t with TComplete => NComplete | TError e => NError e end.
Definition observer_of_subscriber (n : ncall A E) : option (notif A E) :=   (* notification_observer.rs:46-57 *)
  match n with
  | Nxt a => Some (NNext a)
  | Err e => Some (NError e)
  | Cmp => Some NComplete
  | Uns => None
  end.
Definition subscriber_of_observer (n : notif A E) : ncall A E :=      (* notification_subscriber.rs:54-60 *)
  match n with NNext a => Nxt a | NError e => Err e | NComplete => Cmp end.
Definition subscriber_of_terminal (t : terminal) : ncall A E :=       (* notification_subscriber.rs:69-74 *)
  match t with TError e => Err e | TComplete => Cmp end.
Definition subscriber_of_subscription (s : subscription_notif) : ncall A E :=   (* notification_subscriber.rs:82-86 *)
  match s with SUnsubscribe => Uns end.
Definition terminal_of_observer (n : notif A E) : option terminal :=  (* notification_observer_terminal.rs:39-49 *)
  match n with NNext _ => None | NError e => Some (TError e) | NComplete => Some TComplete end.
Definition terminal_of_subscriber (n : ncall A E) : option terminal :=   (* notification_observer_terminal.rs:68-81 *)
  match n with Nxt _ | Uns => None | Err e => Some (TError e) | Cmp => Some TComplete end.
Definition subscription_of_subscriber (n : ncall A E) : option subscription_notif :=   (* notification_subscription.rs:36-49 *)
  match n with Uns => Some SUnsubscribe | _ => None end.

(** Any subscriber: four methods on some state. *)
Record methods (Y : Type) : Type := mkMethods {
  m_next : A -> Y -> Y;
  m_error : E -> Y -> Y;
  m_complete : Y -> Y;
  m_unsubscribe : Y -> Y
}.
Definition push {Y} (d : methods Y) (n : ncall A E) : Y -> Y :=       (* notification_subscriber.rs:97-104 *)
  match n with
  | Nxt a => m_next d a
  | Err e => m_error d e
  | Cmp => m_complete d
  | Uns => m_unsubscribe d
  end.
Definition push_observer {Y} (d : methods Y) (n : notif A E) : Y -> Y :=   (* notification_observer.rs:74-80 *)
  match n with NNext a => m_next d a | NError e => m_error d e | NComplete => m_complete d end.
Definition push_terminal {Y} (d : methods Y) (n : terminal) : Y -> Y :=    (* notification_observer_terminal.rs:92-97 *)
  match n with TError e => m_error d e | TComplete => m_complete d end.
Definition push_subscription {Y} (d : methods Y) (n : subscription_notif) : Y -> Y :=   (* notification_subscription.rs:60-64 *)
  match n with SUnsubscribe => m_unsubscribe d end.

(** The subscriber that turns the calls made on it into notifications. *)
Definition recorder : methods (list (ncall A E)) :=
  {| m_next := fun a l => l ++ [Nxt a];
     m_error := fun e l => l ++ [Err e];
     m_complete := fun l => l ++ [Cmp];
     m_unsubscribe := fun l => l ++ [Uns] |}.

(** *** NotificationQueue, crates/rx_core_notification_store/src/notification_queue.rs. *)
Inductive overflow : Type := DropOldest | IgnoreNext.                 (* queue_overflow_options.rs *)

Record nqueue : Type := mkNQ {
  nq_queue : list (ncall A E);
  nq_error : option E;
  nq_state : N;
  nq_max : nat;                                                       (* options.max_queue_length *)
  nq_over : overflow                                                  (* options.overflow_behavior *)
}.
Definition nq_new (max : nat) (o : overflow) : nqueue := mkNQ [] None fresh max o.   (* :35-42 *)

Definition is_next (n : ncall A E) : bool := match n with Nxt _ => true | _ => false end.
Definition count_nexts (q : nqueue) : nat := length (filter is_next (nq_queue q)).   (* :140-145 *)
Definition has_next (q : nqueue) : bool := existsb is_next (nq_queue q).             (* :147-151 *)

(** [VecDeque::remove]. *)
Fixpoint remove_at {Y} (i : nat) (l : list Y) : list Y :=
  match l, i with
  | [], _ => []
  | _ :: l', 0 => l'
  | y :: l', S i' => y :: remove_at i' l'
  end.
Fixpoint find_index {Y} (f : Y -> bool) (l : list Y) : option nat :=
  match l with
  | [] => None
  | y :: l' => if f y then Some 0 else option_map S (find_index f l')
  end.
(** [.iter().rev().enumerate().find(..)], then [remove] with that index, :103-113. *)
Definition drop_oldest (l : list (ncall A E)) : list (ncall A E) :=
  match find_index is_next (rev l) with Some i => remove_at i l | None => l end.

Definition nq_push (n : ncall A E) (q : nqueue) : option nqueue :=    (* :82-101 *)
  let full := (nq_max q <=? count_nexts q) && is_next n in
  if full && match nq_over q with IgnoreNext => true | DropOldest => false end then Some q else
  let l := if full then drop_oldest (nq_queue q) else nq_queue q in
  match n with
  | Err e =>
      match set_error (nq_state q) with
      | Some s => Some (mkNQ l (Some e) s (nq_max q) (nq_over q))
      | None => None
      end
  | _ =>
      match (match l with [] => update_with_notification (nq_state q) n | _ => Some (nq_state q) end) with
      | Some s => Some (mkNQ (l ++ [n]) (nq_error q) s (nq_max q) (nq_over q))
      | None => None
      end
  end.

Definition nq_pop (q : nqueue) : option (option A * nqueue) :=        (* :115-128, :158-162 *)
  match nq_queue q with
  | Nxt a :: l =>
      match (match l with n :: _ => update_with_notification (nq_state q) n | [] => Some (nq_state q) end) with
      | Some s => Some (Some a, mkNQ l (nq_error q) s (nq_max q) (nq_over q))
      | None => None
      end
  | _ => Some (None, q)
  end.
Definition nq_take_error (q : nqueue) : option E * nqueue :=          (* :165 *)
  (nq_error q, mkNQ (nq_queue q) None (nq_state q) (nq_max q) (nq_over q)).

(** Pushes and pops from a new queue; what was popped. *)
Inductive qact : Type := QPush (n : ncall A E) | QPop.
Fixpoint nq_run (q : nqueue) (h : list qact) : option (list A * nqueue) :=
  match h with
  | [] => Some ([], q)
  | QPush n :: h' => match nq_push n q with Some q' => nq_run q' h' | None => None end
  | QPop :: h' =>
      match nq_pop q with
      | Some (o, q') =>
          match nq_run q' h' with
          | Some (l, q'') => Some (match o with Some a => a :: l | None => l end, q'')
          | None => None
          end
      | None => None
      end
  end.
End Notification.
Arguments Ensure {A E}.
Arguments TComplete {E}.
Arguments QPop {A E}.
