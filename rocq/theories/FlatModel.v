(** The operators on top of the flattening subscribers of [HoModel]: switch_map, exhaust_map,
    concat_map, merge_map, and the _all operators. No proofs in this file. *)
From Verif Require Import Base SubscrModel CombModel HoModel.
Set Implicit Arguments.

Section Map.
Variables A E : Type.    (* of the inner observables and the result *)
Variables U X : Type.    (* of the outer observable *)
Variable M : Type.       (* what the mapper, an FnMut, has captured *)
Notation call := (ncall A E).
Variable down : list call -> bool.
Variable k : kind.
(** The mapper; an inner observable is represented by the calls it makes while it is subscribed to. *)
Variable mapper : M -> U -> M * list call.
Variable error_mapper : X -> E.

(** What happens from outside. *)
Inductive oact : Type :=
| OVal (u : U)                  (* the outer observable emits *)
| OErr (x : X)                  (* it errors *)
| OCmp
| OUns                          (* the subscription is unsubscribed *)
| OInner (i : nat) (c : call).  (* an inner observable makes a call, later *)

(** crates/rx_core_subscriber_higher_order_map/src/higher_order_map_subscriber.rs:16-37: the mapper,
    whether the error mapper is still there, and the flattening subscriber; the operators clone the
    mapper for each subscriber, crates/rx_core_operator_switch_map/src/switch_map_operator.rs:130-132,
    rx_core_operator_exhaust_map/src/exhaust_map_operator.rs:76-78, concat_map_operator.rs:76-78,
    merge_map_operator.rs:78-83. unsubscribe and the life cycle are those of the flattening
    subscriber, :13. *)
Definition deliver (a : oact) (m : M) (e : bool) : M * bool * option (act A E) :=
  match a with
  | OVal u => let (m', l) := mapper m u in (m', e, Some (AArrive l))          (* :99-101 *)
  | OErr x => if e then (m, false, Some (AErr (error_mapper x))) else (m, e, None)   (* :105-109 *)
  | OCmp => (m, e, Some ACmp)                                                 (* :112-114 *)
  | OUns => (m, e, Some AUns)
  | OInner i c => (m, e, Some (AInner i c))
  end.
Fixpoint map_run (fuel : nat) (h : list oact) (m : M) (e : bool) (s : st A E) : M * res A E :=
  match h with
  | [] => (m, Fine s)
  | a :: h' =>
      match deliver a m e with
      | (m', e', None) => map_run fuel h' m' e' s
      | (m', e', Some b) =>
          match perform k b s with
          | Some (s', K) => match drive down k fuel K s' with Fine s1 => map_run fuel h' m' e' s1 | r => (m', r) end
          | None => (m', Panic)
          end
      end
  end.
(** A new subscriber. *)
Definition map_operator (fuel : nat) (h : list oact) (m : M) : M * res A E := map_run fuel h m true init.
End Map.
Arguments OVal {A E U X} u.
Arguments OErr {A E U X} x.
Arguments OCmp {A E U X}.
Arguments OUns {A E U X}.
Arguments OInner {A E U X} i c.

(** crates/rx_core_subscriber_higher_order_all/src/higher_order_all_subscriber.rs:64-79, of
    switch_all, exhaust_all, concat_all and merge_all: the same, with the inner observables
    themselves as values. *)
Definition all_operator (A E X : Type) (down : list (ncall A E) -> bool) (k : kind) (error_mapper : X -> E)
    (fuel : nat) (h : list (oact A E (list (ncall A E)) X)) : res A E :=
  snd (map_operator down k (fun (_ : unit) l => (tt, l)) error_mapper fuel h tt).
