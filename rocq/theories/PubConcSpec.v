(** What the publish subject owes to those who use it from several threads. No proofs in this file.
    Written in terms of what the destinations were told and what the threads are to do; of the
    subject's own state, only whether it is closed, whether its mutex is free or poisoned, and the
    queue of deferred notifications are mentioned. *)
From Verif Require Import Base SubscrModel PubConcModel.
Set Implicit Arguments.

(** [a] is [b] with some elements left out. *)
Inductive sub {X} : list X -> list X -> Prop :=
| sub_nil : sub [] []
| sub_keep x a b : sub a b -> sub (x :: a) (x :: b)
| sub_drop x a b : sub a b -> sub a (x :: b).

Section Spec.
Variables V E : Type.
Notation call := (ncall (item V) E).
(** The values thread [t] pushes, among calls and among deferred notifications. *)
Definition val_c (t : nat) (c : call) : list V := match c with Nxt (u, v) => if u =? t then [v] else [] | _ => [] end.
Definition vals (t : nat) (l : list call) : list V := flat_map (val_c t) l.
Definition val_n (t : nat) (n : note V E) : list V := match n with NCall c => val_c t c | _ => [] end.
Definition valn (t : nat) (l : list (note V E)) : list V := flat_map (val_n t) l.
(** The values of a program. *)
Definition pushes (p : list (op V E)) : list V := flat_map (fun o => match o with ONext v => [v] | _ => [] end) p.
(** The values a thread has yet to push, with the one it is about to tell or to defer. *)
Definition val_k (c : cmd V E) : list V :=
  match c with
  | KOp (ONext v) | KNext _ v | KTry (NCall (Nxt (_, v))) | KDefer (NCall (Nxt (_, v))) => [v]
  | _ => [] end.
Definition valk (l : list (cmd V E)) : list V := flat_map val_k l.

(** The values of the pushes that have not looked yet whether the subject is closed. *)
Definition unbegun (l : list (cmd V E)) : list V :=
  flat_map (fun c => match c with KOp (ONext v) | KNext _ v => [v] | _ => [] end) l.

(** The notification that the holder of the table's mutex has in hand, until it is carried out; and
    the values of thread [t] that are not told yet, except for the deferred ones. *)
Definition at_hand (w : st V E) : option (note V E) := match v_lock w with Held _ _ now => now | _ => None end.
Definition pending (t : nat) (w : st V E) : list V :=
  match at_hand w with Some n => val_n t n | None => [] end ++ valk (nth t (v_thr w) []).

(** Nobody is using the subject. *)
Definition idle (w : st V E) : Prop := v_lock w = Free /\ forall t, nth t (v_thr w) [] = [].
Definition usable (w : st V E) : Prop := is_closed w = false /\ v_lock w <> Poisoned.
(** Values, then at most one end. It is closed after an end, and otherwise only if it closed itself. *)
Definition proper (shut : list call -> bool) (d : dest V E) : Prop :=
  exists vs e, d_told d = map Nxt vs ++ e /\
  ((e = [] /\ (d_closed d = true -> shut (d_told d) = true)) \/ (d_closed d = true /\ exists c, e = [c] /\ ends c = true)).
End Spec.
