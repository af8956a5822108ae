(** The concat and merge observables, on top of the concurrent subscriber of [HoModel]. No proofs in
    this file. *)
From Verif Require Import Base SubscrModel CombModel HoModel.
Set Implicit Arguments.

Section Merge.
Variables A E : Type.
Notation call := (ncall A E).
Variable down : list call -> bool.

(** crates/rx_core_observable_concat/src/concat_observable.rs:63-66 and
    crates/rx_core_observable_merge/src/merge_observable.rs:71-74: the observables they were made
    with arrive one by one, and the subscriber is completed. *)
Definition fixed (ls : list (list call)) : list (act A E) := map (@AArrive A E) ls ++ [ACmp].

(** concat_observable.rs:46-73: the limit is [NonZero::MIN]. [h] happens after [subscribe] has
    returned. The subscription that is returned unsubscribes the subscriber, which is [AUns]; the
    subscriber unsubscribes the subscription when it is over, which has no effect that is modelled. *)
Definition concat_observable (fuel : nat) (ls : list (list call)) (h : list (act A E)) : res A E :=
  flatten down (Concurrent 1) fuel (fixed ls ++ h) init.
(** merge_observable.rs:36 [new], :54-81 [subscribe] *)
Definition clamp (limit : nat) : nat := match limit with O => 1 | n => n end.
Definition merge_observable (limit fuel : nat) (ls : list (list call)) (h : list (act A E)) : res A E :=
  flatten down (Concurrent (clamp limit)) fuel (fixed ls ++ h) init.
End Merge.
