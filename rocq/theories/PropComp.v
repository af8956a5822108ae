(** Property C72: observables and subjects as components of entities.

    A history [h] lists what was done, newest first. [told _ _ _ (o :: h)] is what the operation [o] tells
    after [h]; [held h e k] what the component of type [k] on the entity [e] holds after [h];
    [careful h]: no component was inserted over one of its own type. [ins] and [outs] give the
    types that go into and come out of a component type, [order] the order in which the observers of
    an event run. *)
From Coq Require Import Permutation.
From Verif Require Import Base CompModel CompSpec CompMain.
Set Implicit Arguments.

(** Types: 0 and 1 are subjects with input 5 and output 7, 2 an observable with output 7, 3 one with output 8. *)
Definition some_ins (k : nat) : option nat := if k <? 2 then Some 5 else None.
Definition some_outs (k : nat) : nat := if k <? 3 then 7 else 8.
Definition as_is : nat -> list sat -> list sat := fun _ l => l.
Definition backwards : nat -> list sat -> list sat := fun _ l => rev l.
Lemma as_is_fair : fair as_is.
Proof. intros n l. apply Permutation_refl. Qed.
Lemma backwards_fair : fair backwards.
Proof. intros n l. apply Permutation_sym, Permutation_rev. Qed.
(** What is told after the operations, in the order they are done. *)
Notation after l := (told some_ins some_outs as_is (rev l)).
Notation after' l := (told some_ins some_outs backwards (rev l)).

(** A signal is pushed once into each subject that is there and takes it, and nothing else happens. *)
Theorem C72_signal : forall ins outs order, fair order -> forall h e ty v, careful h ->
  (forall k j, held h e k = Some j -> ins k = Some ty ->
     times (TPush e k j v) (told ins outs order (OSignal e ty v :: h)) = 1) /\
  (forall x, In x (told ins outs order (OSignal e ty v :: h)) ->
     exists k j, x = TPush e k j v /\ ins k = Some ty /\ held h e k = Some j).
Proof. exact signal. Qed.
Print Assumptions C72_signal.

(** With insertions over a component of the same type: as often as there were insertions more than removals. *)
Theorem C72_pushes : forall ins outs order, fair order -> forall h e ty v k j,
  held h e k = Some j -> ins k = Some ty ->
  times (TPush e k j v) (told ins outs order (OSignal e ty v :: h)) = copies h e k.
Proof. exact pushes. Qed.
Print Assumptions C72_pushes.
Theorem C72_pushes_only : forall ins outs order, fair order -> forall h e ty v x,
  In x (told ins outs order (OSignal e ty v :: h)) ->
  exists k j, x = TPush e k j v /\ ins k = Some ty /\ held h e k = Some j.
Proof. exact pushes_only. Qed.
Print Assumptions C72_pushes_only.

Example C72_ex_signal :
  let l := [OInsert 9 0 40; OInsert 9 1 41; OInsert 9 2 42; OInsert 8 0 43; OSignal 9 5 100] in
  careful (rev l) /\ (after l, after' l) = ([TPush 9 0 40 100; TPush 9 1 41 100], [TPush 9 1 41 100; TPush 9 0 40 100]).
Proof. vm_compute. auto 10. Qed.
Example C72_ex_signal_gone :
  (after [OInsert 9 0 40; ORemove 9 0; OSignal 9 5 100], after [OInsert 9 0 40; ORemove 9 0; OInsert 9 0 41; OSignal 9 5 100]) =
  ([], [TPush 9 0 41 100]).
Proof. vm_compute. reflexivity. Qed.

(** It is not always once: a subject inserted over another is pushed everything twice, *)
Theorem C72_signal_refuted : exists l, after l = [TPush 9 0 41 100; TPush 9 0 41 100].
Proof. exists [OInsert 9 0 40; OInsert 9 0 41; OSignal 9 5 100]. vm_compute. reflexivity. Qed.
Print Assumptions C72_signal_refuted.
(** even when it is removed and another is put where there is none. *)
Theorem C72_signal_later_refuted : exists l, held (rev l) 9 0 = None /\
  after (l ++ [OInsert 9 0 42; OSignal 9 5 100]) = [TPush 9 0 42 100; TPush 9 0 42 100].
Proof. exists [OInsert 9 0 40; OInsert 9 0 41; ORemove 9 0]. vm_compute. auto. Qed.
Print Assumptions C72_signal_later_refuted.

(** A subscription reaches exactly one of the observables with these outputs that are there, *)
Theorem C72_subscribe : forall ins outs order, fair order -> forall h e ty d k j,
  careful h -> outs k = ty -> held h e k = Some j ->
  exists k' j' r, told ins outs order (OSub e ty d :: h) = TSub e k' j' d :: r /\
    outs k' = ty /\ held h e k' = Some j' /\ (forall y, In y r -> exists k', y = TConsumed e k' d).
Proof. exact subscribe_some. Qed.
Print Assumptions C72_subscribe.
(** if there is one only, that one and without errors, *)
Theorem C72_subscribe_one : forall ins outs order, fair order -> forall h e ty d k j,
  careful h -> outs k = ty -> held h e k = Some j ->
  (forall k', outs k' = ty -> held h e k' <> None -> k' = k) ->
  told ins outs order (OSub e ty d :: h) = [TSub e k j d].
Proof. exact subscribe_one. Qed.
Print Assumptions C72_subscribe_one.
(** and is tried again later if there is none. *)
Theorem C72_subscribe_none : forall ins outs order, fair order -> forall h e ty d,
  careful h -> (forall k, outs k = ty -> held h e k = None) ->
  told ins outs order (OSub e ty d :: h) = [TWait d].
Proof. exact subscribe_none. Qed.
Print Assumptions C72_subscribe_none.
(** Whatever was inserted over what: at most one observable is subscribed to, *)
Theorem C72_subscribe_any : forall ins outs order, fair order -> forall h e ty d k,
  outs k = ty -> 1 <= copies h e k ->
  exists x r, told ins outs order (OSub e ty d :: h) = x :: r /\
    ((exists k' j', x = TSub e k' j' d /\ outs k' = ty /\ held h e k' = Some j') \/
     (exists k', x = TNot e k' d /\ outs k' = ty /\ held h e k' = None /\ 1 <= copies h e k')) /\
    (forall y, In y r -> exists k', y = TConsumed e k' d /\ outs k' = ty).
Proof. exact sub_some. Qed.
Print Assumptions C72_subscribe_any.

Example C72_ex_subscribe :
  let l := [OInsert 9 0 40; OInsert 9 2 42; OInsert 9 3 43; OSub 9 7 200] in
  careful (rev l) /\ (after l, after' l, after [OInsert 9 3 43; OSub 9 7 200], after [OInsert 9 3 43; OSub 9 8 200]) =
    ([TSub 9 0 40 200; TConsumed 9 2 200], [TSub 9 2 42 200; TConsumed 9 0 200], [TWait 200], [TSub 9 3 43 200]).
Proof. vm_compute. auto 10. Qed.

(** but though there is one, the destination may be dropped by what is left of another. *)
Theorem C72_subscribe_refuted : exists l, held (rev l) 9 2 = Some 42 /\
  after (l ++ [OSub 9 7 200]) = [TNot 9 0 200; TConsumed 9 2 200].
Proof. exists [OInsert 9 0 40; OInsert 9 0 41; ORemove 9 0; OInsert 9 2 42]. vm_compute. auto. Qed.
Print Assumptions C72_subscribe_refuted.
(** And though there is none, it may be dropped rather than tried again. *)
Theorem C72_retry_refuted : exists l, (forall k, held (rev l) 9 k = None) /\ after (l ++ [OSub 9 7 200]) = [TNot 9 0 200].
Proof.
  exists [OInsert 9 0 40; OInsert 9 0 41; ORemove 9 0]. split; [|vm_compute; reflexivity].
  intros [|k]; reflexivity.
Qed.
Print Assumptions C72_retry_refuted.

(** A subject that is removed, by itself or with its entity, is unsubscribed, *)
Theorem C72_removed : forall ins outs order h e k,
  told ins outs order (ORemove e k :: h) =
  match held h e k with Some j => [if subject ins k then TUnsub e k j else TFree e k j] | None => [] end.
Proof. exact removed. Qed.
Print Assumptions C72_removed.
Theorem C72_despawned : forall ins outs order h e k j, subject ins k = true -> held h e k = Some j ->
  times (TUnsub e k j) (told ins outs order (ODespawn e :: h)) = 1.
Proof. exact despawned. Qed.
Print Assumptions C72_despawned.
(** so each is either still there, or unsubscribed, or was overwritten, *)
Theorem C72_balance : forall ins outs order h e k j, subject ins k = true ->
  inserted h e k j = times (TUnsub e k j) (trace ins outs order h) + times (TDrop e k j) (trace ins outs order h) +
    match held h e k with Some i => if i =? j then 1 else 0 | None => 0 end.
Proof. exact balance. Qed.
Print Assumptions C72_balance.
(** which does not happen if no component is inserted over one of its type. *)
Theorem C72_not_dropped : forall ins outs order h e k j,
  careful h -> ~ In (TDrop e k j) (trace ins outs order h).
Proof. exact no_drop. Qed.
Print Assumptions C72_not_dropped.

Example C72_ex_removed :
  (after [OInsert 9 0 40; OInsert 9 2 42; ORemove 9 0], after [OInsert 9 0 40; OInsert 9 2 42; OInsert 8 1 41; ODespawn 9]) =
  ([TUnsub 9 0 40], [TUnsub 9 0 40; TFree 9 2 42]).
Proof. vm_compute. reflexivity. Qed.

(** Who is subscribed to a subject that is overwritten is not unsubscribed then. *)
Theorem C72_replaced_refuted : exists l, held (rev l) 9 0 = Some 40 /\ after (l ++ [OInsert 9 0 41]) = [TDrop 9 0 40].
Proof. exists [OInsert 9 0 40]. vm_compute. auto. Qed.
Print Assumptions C72_replaced_refuted.

(** A component has its satellites as long as it is there and no longer, *)
Theorem C72_satellites : forall ins outs order h e k, careful h ->
  length (satellites ins outs order h e k) =
  match held h e k with Some _ => if subject ins k then 2 else 1 | None => 0 end.
Proof. exact satellites_careful. Qed.
Print Assumptions C72_satellites.
Theorem C72_satellites_any : forall ins outs order h e k,
  length (satellites ins outs order h e k) = if subject ins k then 2 * copies h e k else copies h e k.
Proof. exact satellites_many. Qed.
Print Assumptions C72_satellites_any.
(** and nothing is left of any once the entity is despawned. *)
Theorem C72_nothing_left : forall ins outs order, fair order -> forall h e, gone h e ->
  (forall k, held h e k = None /\ satellites ins outs order h e k = []) /\
  (forall ty v, told ins outs order (OSignal e ty v :: h) = []) /\
  (forall ty d, told ins outs order (OSub e ty d :: h) = [TWait d]).
Proof. exact nothing_left. Qed.
Print Assumptions C72_nothing_left.

Example C72_ex_satellites :
  map (fun l => length (satellites some_ins some_outs as_is (rev l) 9 0))
    [[OInsert 9 0 40]; [OInsert 9 0 40; ORemove 9 0]; [OInsert 9 0 40; OInsert 9 0 41]; [OInsert 9 0 40; OInsert 9 0 41; ODespawn 9]] =
  [2; 0; 4; 0].
Proof. vm_compute. reflexivity. Qed.

(** They may be left without a component, as long as the entity lives. *)
Theorem C72_left_refuted : exists l, held (rev l) 9 0 = None /\
  length (satellites some_ins some_outs as_is (rev l) 9 0) = 2.
Proof. exists [OInsert 9 0 40; OInsert 9 0 41; ORemove 9 0]. vm_compute. auto. Qed.
Print Assumptions C72_left_refuted.

(** [ObservableOutputs] says that there is an observable with these outputs, *)
Theorem C72_outputs : forall ins outs order h e ty, outputs ins outs order h e ty = true ->
  exists k j, outs k = ty /\ held h e k = Some j.
Proof. exact outputs_held. Qed.
Print Assumptions C72_outputs.
(** and is there for every observable of a type that is alone with its outputs, *)
Theorem C72_outputs_alone : forall ins outs order h e k j, (forall k', outs k' = outs k -> k' = k) ->
  held h e k = Some j -> outputs ins outs order h e (outs k) = true.
Proof. exact outputs_there. Qed.
Print Assumptions C72_outputs_alone.
Example C72_ex_outputs :
  map (fun l => (outputs some_ins some_outs as_is (rev l) 9 7, outputs some_ins some_outs as_is (rev l) 9 8))
    [[OInsert 9 0 40; OInsert 9 3 43]; [OInsert 9 0 40; OInsert 9 3 43; ORemove 9 0]; [OInsert 9 0 40; OInsert 9 3 43; ODespawn 9]] =
  [(true, true); (false, true); (false, false)].
Proof. vm_compute. reflexivity. Qed.
(** but not for every one: another with the same outputs takes it along. *)
Theorem C72_outputs_refuted : exists l, careful (rev l) /\ held (rev l) 9 2 = Some 42 /\
  outputs some_ins some_outs as_is (rev l) 9 7 = false.
Proof. exists [OInsert 9 0 40; OInsert 9 2 42; ORemove 9 0]. vm_compute. auto 10. Qed.
Print Assumptions C72_outputs_refuted.
