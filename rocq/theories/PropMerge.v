(** Property C58: the result of concat and merge as a function of what they hear.

    [down] is the destination: after which calls it has closed itself. *)
From Verif Require Import Base SubscrModel CombModel HoModel HoSpec MergeModel MergeSpec HoAll HoMerge HoSync.
From Verif Require LifeProofs.
Set Implicit Arguments.
Definition never (l : list (ncall nat nat)) : bool := false.
Definition after (n : nat) (l : list (ncall nat nat)) : bool := n <=? length l.

(** The concurrent subscriber tells its destination the values of all that it hears in the order in
    which it hears them, and how it ends; up to the call after which the destination is closed. *)
Theorem C58_merge : forall A E (down : list (ncall A E) -> bool) L, 1 <= L -> forall fuel h s, no_uns h = true ->
  flatten down (Concurrent L) fuel h init = Fine s ->
  outs (s_tr s) = until down [] (merged 0 false (s_tr s)).
Proof. exact @concurrent_merged. Qed.
Print Assumptions C58_merge.
(** There is such a run, however much fuel there is. *)
Theorem C58_merge_runs : forall A E (down : list (ncall A E) -> bool) L h, 1 <= L -> LifeProofs.contract false false (outer h) -> no_uns h = true ->
  exists fuel, forall fuel', fuel <= fuel' -> exists s, flatten down (Concurrent L) fuel' h init = Fine s /\
  outs (s_tr s) = until down [] (merged 0 false (s_tr s)).
Proof. exact @merged_runs. Qed.
Print Assumptions C58_merge_runs.
(** One at a time: all values of the first, then those of the second, and so on. *)
Theorem C58_chain : forall A E (down : list (ncall A E) -> bool) L, 1 <= L -> forall fuel h s, L = 1 -> no_uns h = true -> peaceful h = true ->
  flatten down (Concurrent L) fuel h init = Fine s ->
  outs (s_tr s) = until down [] (chained (outer_completed (s_tr s)) (map (fun i => input i (s_tr s)) (seq 0 (arrivals (s_tr s))))).
Proof. exact @concurrent_chained. Qed.
Print Assumptions C58_chain.

(** It hears every observable that arrives while the destination is open, and every call of an
    inner observable that is running. *)
Theorem C58_hears : forall A E (down : list (ncall A E) -> bool) L, 1 <= L -> forall fuel h i c s s', no_uns h = true ->
  flatten down (Concurrent L) fuel h init = Fine s -> flatten down (Concurrent L) fuel (h ++ [AInner i c]) init = Fine s' ->
  (active i (s_tr s) = false /\ s_tr s' = s_tr s) \/ (active i (s_tr s) = true /\ exists r, s_tr s' = s_tr s ++ TIn i c :: r).
Proof. exact @heard_inner. Qed.
Print Assumptions C58_hears.
Theorem C58_arrives : forall A E (down : list (ncall A E) -> bool) L, 1 <= L -> forall fuel h l s s', no_uns h = true ->
  flatten down (Concurrent L) fuel h init = Fine s -> flatten down (Concurrent L) fuel (h ++ [AArrive l]) init = Fine s' ->
  (~ open down (s_tr s) /\ s_tr s' = s_tr s) \/ (open down (s_tr s) /\ exists r, s_tr s' = s_tr s ++ TArrive (arrivals (s_tr s)) :: r).
Proof. exact @heard_arrive. Qed.
Print Assumptions C58_arrives.

(** The concat observable: the values of its observables, in the order in which it was made with
    them. *)
Theorem C58_concat : forall A E (down : list (ncall A E) -> bool) fuel ls h s, completes ls = true -> later h = true ->
  concat_observable down fuel ls h = Fine s ->
  outs (s_tr s) = until down [] (chained true (map (fun i => input i (s_tr s)) (seq 0 (length ls)))).
Proof. exact @concat_chained. Qed.
Print Assumptions C58_concat.
(** If they are over when they have been subscribed to, nothing panics, and concat and merge are the
    same, whatever the limit of merge. *)
Theorem C58_sync : forall A E (down : list (ncall A E) -> bool) limit ls, Forall (@synchronous A E) ls ->
  exists s fuel, (forall m, fuel <= m -> merge_observable down limit m ls [] = Fine s) /\
  outs (s_tr s) = until down [] (chained true ls).
Proof. exact @merge_sync. Qed.
Print Assumptions C58_sync.
Theorem C58_concat_sync : forall A E (down : list (ncall A E) -> bool) ls, Forall (@synchronous A E) ls ->
  exists s fuel, (forall m, fuel <= m -> concat_observable down m ls [] = Fine s) /\
  outs (s_tr s) = until down [] (chained true ls).
Proof. exact @concat_sync. Qed.
Print Assumptions C58_concat_sync.
Theorem C58_values : forall A E (down : list (ncall A E) -> bool) limit (vss : list (list A)),
  exists s fuel, (forall m, fuel <= m -> merge_observable down limit m (map (fun vs => map (@Nxt A E) vs ++ [Cmp]) vss) [] = Fine s) /\
  outs (s_tr s) = until down [] (map Nxt (concat vss) ++ [Cmp]).
Proof. exact @merge_values. Qed.
Print Assumptions C58_values.

Definition told (r : res nat nat) : option (list (ncall nat nat)) := match r with Fine s => Some (outs (s_tr s)) | _ => None end.
(** Three observables, of which two are not over when they are subscribed to: merged two at a time,
    one at a time, and into a destination that closes itself. *)
Definition ls58 : list (list (ncall nat nat)) := [[Nxt 1]; [Nxt 2]; [Nxt 3; Cmp]].
Definition h58 : list (act nat nat) := [AInner 1 (Nxt 4); AInner 0 (Nxt 5); AInner 1 Cmp; AInner 0 Cmp; AInner 1 (Nxt 6); AInner 1 Cmp].
Example C58_example :
  completes ls58 = true /\ later h58 = true /\
  told (merge_observable never 2 100 ls58 h58) = Some [Nxt 1; Nxt 2; Nxt 4; Nxt 5; Nxt 3; Cmp] /\
  told (concat_observable never 100 ls58 h58) = Some [Nxt 1; Nxt 5; Nxt 2; Nxt 6; Nxt 3; Cmp] /\
  told (merge_observable (after 3) 2 100 ls58 h58) = Some [Nxt 1; Nxt 2; Nxt 4] /\
  told (concat_observable never 100 ls58 (firstn 3 h58)) = Some [Nxt 1; Nxt 5].
Proof. vm_compute. auto 10. Qed.
(** The order in which they end does not matter to merge, but an error does. *)
Example C58_error :
  told (merge_observable never 0 100 [[Nxt 1; Cmp]; [Nxt 2; Err 7]; [Nxt 3; Cmp]] []) = Some [Nxt 1; Nxt 2; Err 7] /\
  told (merge_observable never 3 100 [[Nxt 1]; [Nxt 2]] [AInner 1 (Err 7); AInner 0 (Nxt 3)]) = Some [Nxt 1; Nxt 2; Err 7] /\
  told (merge_observable never 3 100 [] []) = Some [Cmp].
Proof. vm_compute. auto. Qed.

(** What is left out: how the result ends if an inner observable unsubscribes its subscriber instead
    of completing depends on whether it is the last. *)
Example C58_unsubscribed :
  told (merge_observable never 2 100 [[Nxt 1]; [Nxt 2]] [AInner 0 Uns; AInner 1 Cmp]) = Some [Nxt 1; Nxt 2; Cmp] /\
  told (merge_observable never 2 100 [[Nxt 1]; [Nxt 2]] [AInner 1 Cmp; AInner 0 Uns]) = Some [Nxt 1; Nxt 2; Uns].
Proof. vm_compute. auto. Qed.
