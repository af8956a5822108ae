(** Properties C39 to C41, C51 and C52: zip, combine_latest, combine_changes, join and
    with_latest_from.

    A history is a list of calls of the two sources, each with a mark that says whether it was
    made while the combining subscriber was in use and so deferred. [down] says after which calls
    the destination has closed itself. [all_told down looks answer h] is what the destination
    should be told: each call is answered by [answer], a function of the calls before it, as long
    as the destination is open. *)
From Verif Require Import Base SubscrModel LifeModel LifeProofs CombModel CombSpec CombProofs CombZip CombMore.
Set Implicit Arguments.

(** *** C39: zip. In general the values wait in two bounded queues. *)
Theorem C39_zip : forall A1 A2 E max o, 0 < max ->
  forall down (h : list (bool * either2 A1 A2 E)), lawful (map snd h) ->
  zip max o down h = Some (all_told down true (zipq_answer max o) h).
Proof. exact @zip_told. Qed.
Print Assumptions C39_zip.

(** As long as the queues do not overflow, the pair of the i-th values is told with the later of
    the two, and the end when one source has ended and no value is left over. *)
Theorem C39_zip_by_index : forall A1 A2 E max o, 0 < max ->
  forall down (h : list (bool * either2 A1 A2 E)), lawful (map snd h) -> fits max (map snd h) ->
  zip max o down h = Some (all_told down true (@zip_answer A1 A2 E) h).
Proof. exact @zip_told_by_index. Qed.
Print Assumptions C39_zip_by_index.

(** A destination that stays open gets all the pairs. *)
Theorem C39_zip_pairs : forall A1 A2 E max o (h : list (bool * either2 A1 A2 E)), 0 < max ->
  lawful (map snd h) -> fits max (map snd h) -> (forall e, In e (map snd h) -> error_in e = None) ->
  exists l, zip max o (fun _ => false) h = Some l /\
    values l = combine (values (on1 (map snd h))) (values (on2 (map snd h))).
Proof. exact @zip_pairs. Qed.
Print Assumptions C39_zip_pairs.

Definition seq2 (l : list (either2 nat nat nat)) := map (pair false) l.
Example C39_example :
  let h := seq2 [On1 (Nxt 1); On1 (Nxt 2); On2 (Nxt 3); On1 Cmp; On2 (Nxt 4); On2 (Nxt 5); On2 Cmp; On1 Uns; On2 Uns] in
  zip 5 DropOldest (fun _ => false) h = Some [Nxt (1, 3); Nxt (2, 4); Cmp] /\
  zip 5 DropOldest (fun l => length l =? 1) h = Some [Nxt (1, 3)] /\
  zip 1 IgnoreNext (fun _ => false) (firstn 5 h) = Some [Nxt (1, 3); Cmp].
Proof. vm_compute. auto. Qed.

(** The end is missed if the other source has values left over: no further pair is possible, but
    the destination is never told, not even when both sources have completed and unsubscribed. *)
Theorem C39_ends_at_once_refuted : exists h : list (bool * either2 nat nat nat),
  lawful (map snd h) /\ fits 5 (map snd h) /\
  completed (on1 (map snd h)) = true /\ completed (on2 (map snd h)) = true /\
  In (On1 Uns) (map snd h) /\ In (On2 Uns) (map snd h) /\
  mute (@zip_answer nat nat nat) (map snd h) /\
  zip 5 DropOldest (fun _ => false) h = Some [Nxt (1, 3)].
Proof.
  exists (seq2 [On1 (Nxt 1); On1 (Nxt 2); On2 (Nxt 3); On2 Cmp; On1 Cmp; On1 Uns; On2 Uns]).
  split; [vm_compute; auto|]. split.
  - intros q r H. do 8 (destruct q as [|? q]; [cbn; lia|cbn in H; injection H as <- H]; try (destruct q; [cbn; lia|discriminate])).
  - do 4 (split; [vm_compute; auto 20|]). split; [|reflexivity].
    intros r e HL. pose proof (@only_uns nat nat nat _ _ _ HL) as U.
    destruct e as [n|n]; rewrite U by reflexivity; cbn; destruct (ended _); auto; destruct (negb _); reflexivity.
Qed.
Print Assumptions C39_ends_at_once_refuted.

(** A queue that overflows shifts the pairing. *)
Theorem C39_overflow_refuted : exists h : list (bool * either2 nat nat nat),
  lawful (map snd h) /\
  zip 1 DropOldest (fun _ => false) h = Some [Nxt (2, 3)] /\
  zip 1 IgnoreNext (fun _ => false) (h ++ [(false, On1 (Nxt 4)); (false, On2 (Nxt 5))]) = Some [Nxt (1, 3); Nxt (4, 5)].
Proof. exists (seq2 [On1 (Nxt 1); On1 (Nxt 2); On2 (Nxt 3)]). vm_compute. auto. Qed.
Print Assumptions C39_overflow_refuted.

(** *** C40: combine_latest. [cl_answer]: every value is paired with the latest value of the
    other source, if there is one; the first error is passed on; for the ends see [cl_ends]. *)
Theorem C40_combine_latest : forall A1 A2 E down (h : list (bool * either2 A1 A2 E)), lawful (map snd h) ->
  combine_latest down h = Some (all_told down true (@cl_answer A1 A2 E) h).
Proof. exact @combine_latest_told. Qed.
Print Assumptions C40_combine_latest.
Example C40_example :
  let h := seq2 [On1 (Nxt 1); On1 (Nxt 2); On2 (Nxt 3); On1 Cmp; On1 Uns; On2 (Nxt 4); On2 Cmp; On2 Uns] in
  combine_latest (fun _ => false) h = Some [Nxt (2, 3); Nxt (2, 4); Cmp] /\
  combine_latest (fun l => length l =? 1) h = Some [Nxt (2, 3)] /\
  combine_latest (fun _ => false) (seq2 [On1 (Nxt 1); On2 Cmp; On2 Uns]) = Some [Cmp] /\
  combine_latest (fun _ => false) (seq2 [On1 (Nxt 1); On2 (Err 7); On2 Uns]) = Some [Err 7].
Proof. vm_compute. auto. Qed.

(** A source that completes without having emitted, before the other emitted, ends the result
    without completing it. *)
Theorem C40_completes_refuted : exists h : list (bool * either2 nat nat nat),
  lawful (map snd h) /\ completed (on1 (map snd h)) = true /\ values (on1 (map snd h)) = [] /\
  combine_latest (fun _ => false) h = Some [Uns].
Proof. exists (seq2 [On1 Cmp]). vm_compute. auto. Qed.
Print Assumptions C40_completes_refuted.

(** A source that unsubscribes without having emitted, after the other emitted, leaves the result
    open, though nothing can be emitted any more. *)
Theorem C40_ends_at_once_refuted : exists h : list (bool * either2 nat nat nat),
  lawful (map snd h) /\ ended (on2 (map snd h)) = true /\ values (on2 (map snd h)) = [] /\
  mute (@cl_answer nat nat nat) (map snd h) /\
  combine_latest (fun _ => false) h = Some [].
Proof.
  exists (seq2 [On1 (Nxt 1); On2 Uns; On1 (Nxt 2)]). do 3 (split; [vm_compute; auto|]).
  split; [now apply cl_mute_none|reflexivity].
Qed.
Print Assumptions C40_ends_at_once_refuted.

(** *** C41: combine_changes, join, with_latest_from. *)
Theorem C41_combine_changes : forall A1 A2 E down (h : list (bool * either2 A1 A2 E)), lawful (map snd h) ->
  combine_changes down h = Some (all_told down true (@cc_answer A1 A2 E) h).
Proof. exact @combine_changes_told. Qed.
Print Assumptions C41_combine_changes.
(** join does not look at the destination between the value and the completion. *)
Theorem C41_join : forall A1 A2 E down (h : list (bool * either2 A1 A2 E)), lawful (map snd h) ->
  join down h = Some (all_told down false (@join_answer A1 A2 E) h).
Proof. exact @join_told. Qed.
Print Assumptions C41_join.
Theorem C41_with_latest_from : forall A1 A2 E down (h : list (either2 A1 A2 E)), lawful h ->
  with_latest_from down h = all_told down true (@wl_answer A1 A2 E) (map (pair false) h).
Proof. exact @with_latest_told. Qed.
Print Assumptions C41_with_latest_from.
Example C41_example :
  let h := [On1 (Nxt 1); On2 (Nxt 3); On1 (Nxt 2); On2 Cmp; On2 Uns; On1 (Nxt 4); On1 Cmp; On1 Uns] in
  combine_changes (fun _ : list (ncall (change nat * change nat) nat) => false) (seq2 h) =
    Some [Nxt (JustUpdated 1, NoChange); Nxt (Latest 1, JustUpdated 3); Nxt (JustUpdated 2, Latest 3);
          Nxt (JustUpdated 4, Latest 3); Cmp] /\
  join (fun _ => false) (seq2 h) = Some [Nxt (4, 3); Cmp] /\
  with_latest_from (fun _ : list (ncall (nat * nat) nat) => false) h = [Nxt (2, 3); Nxt (4, 3); Cmp].
Proof. vm_compute. auto. Qed.

(** The inner observable of with_latest_from unsubscribes without a value: the source goes on
    with nothing to emit. *)
Theorem C41_with_latest_ends_refuted : exists h : list (either2 nat nat nat),
  lawful h /\ In (On2 Uns) h /\ mute (@wl_answer nat nat nat) h /\
  with_latest_from (fun _ : list (ncall (nat * nat) nat) => false) h = [].
Proof.
  exists [On2 Uns; On1 (Nxt 1)]. do 2 (split; [vm_compute; auto|]). split; [now apply wl_mute_none|reflexivity].
Qed.
Print Assumptions C41_with_latest_ends_refuted.

(** *** C51: a closed destination is told nothing, if no call was deferred. *)
Theorem C51_polite_partial : forall A1 A2 E (h : list (bool * either2 A1 A2 E)), lawful (map snd h) ->
  forallb (fun de => negb (fst de)) h = true ->
  (forall max o down, 0 < max -> exists l, zip max o down h = Some l /\ polite down l) /\
  (forall down, exists l, combine_latest down h = Some l /\ polite down l) /\
  (forall down, exists l, combine_changes down h = Some l /\ polite down l) /\
  (forall down, polite down (with_latest_from down (map snd h))).
Proof. exact @polite_all. Qed.
Print Assumptions C51_polite_partial.
Example C51_example :
  let h := seq2 [On1 (Nxt 1); On2 (Nxt 2); On1 (Err 3); On2 (Nxt 4); On2 (Err 5)] in
  lawful (map snd h) /\ combine_latest (fun _ => false) h = Some [Nxt (1, 2); Err 3].
Proof. vm_compute. auto 20. Qed.

(** join completes a destination that closed itself on the value (join_subscriber.rs:77-88). *)
Theorem C51_join_refuted : exists down (h : list (bool * either2 nat nat nat)) l,
  lawful (map snd h) /\ forallb (fun de => negb (fst de)) h = true /\
  join down h = Some l /\ ~ polite down l.
Proof.
  exists (fun l => length l =? 1), (seq2 [On1 (Nxt 1); On2 (Nxt 2); On1 Cmp; On2 Cmp]), [Nxt (1, 2); Cmp].
  split; [vm_compute; auto 20|]. split; [reflexivity|]. split; [reflexivity|].
  intros H. destruct (H [] (Nxt (1, 2)) Cmp [] eq_refl) as [_ H2]. discriminate H2.
Qed.
Print Assumptions C51_join_refuted.
(** A deferred error reaches a destination that has completed in the meantime. *)
Theorem C51_deferred_error_refuted : exists (h : list (bool * either2 nat nat nat)) l1 l2 l3,
  let down := fun _ => false in let down' := fun _ => false in
  lawful (map snd h) /\
  combine_latest down h = Some l1 /\ ~ polite down l1 /\
  combine_changes down' h = Some l2 /\ ~ polite down' l2 /\
  zip 5 DropOldest down h = Some l3 /\ ~ polite down l3.
Proof.
  exists [(false, On1 (Err 1)); (true, On2 (Err 2))], [Err 1; Err 2], [Err 1; Err 2], [Err 1; Err 2]. intros down down'.
  split; [vm_compute; auto 20|].
  do 2 (split; [reflexivity|]; split; [intros H; destruct (H [] (Err 1) (Err 2) [] eq_refl) as [H2 _]; discriminate H2|]).
  split; [reflexivity|]. intros H; destruct (H [] (Err 1) (Err 2) [] eq_refl) as [H2 _]; discriminate H2.
Qed.
Print Assumptions C51_deferred_error_refuted.

(** *** C52: an end is told only when nothing can be emitted any more, whatever the sources send. *)
Theorem C52_late : forall A1 A2 E (h : list (bool * either2 A1 A2 E)) max o down down', 0 < max -> lawful (map snd h) ->
  (forall l, zip max o down h = Some l -> ends_it l -> mute (zipq_answer max o) (map snd h)) /\
  (forall l, combine_latest down h = Some l -> ends_it l -> mute (@cl_answer A1 A2 E) (map snd h)) /\
  (forall l, combine_changes down' h = Some l -> ends_it l -> mute (@cc_answer A1 A2 E) (map snd h)) /\
  (forall l, join down h = Some l -> ends_it l -> mute (@join_answer A1 A2 E) (map snd h)) /\
  (ends_it (with_latest_from down (map snd h)) -> mute (@wl_answer A1 A2 E) (map snd h)).
Proof. exact @late_all. Qed.
Print Assumptions C52_late.
(** Not so while the other source can still bring about an emission. *)
Example C52_example :
  let h := [On1 (Nxt 1); On1 (Nxt 2); On2 (Nxt 3); On1 Cmp] in
  lawful h /\ ~ mute (@zip_answer nat nat nat) h /\ ~ mute (@cl_answer nat nat nat) h /\
  zip 5 DropOldest (fun _ => false) (seq2 h) = Some [Nxt (1, 3)] /\
  combine_latest (fun _ => false) (seq2 h) = Some [Nxt (2, 3)].
Proof.
  cbv zeta. split; [vm_compute; auto 20|]. split; [|split; [|split; reflexivity]];
    intros H; specialize (H [] (On2 (Nxt 4)) ltac:(vm_compute; auto 20)); discriminate H.
Qed.
