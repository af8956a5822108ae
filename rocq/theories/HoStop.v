(** Proofs about [HoModel]: every call comes to an end. *)
From Verif Require Import Base SubscrModel LifeModel CombModel HoModel HoSpec.
Set Implicit Arguments.

Section Stop.
Variables A E : Type.
Variable down : list (ncall A E) -> bool.
Variable k : kind.
Notation st := (HoModel.st A E).
Notation cmd := (HoModel.cmd A E).
Notation step := (HoModel.step down k).
Implicit Types (s : st) (K : list cmd).

Definition weight (c : cmd) : nat :=
  match c with
  | KTell _ => 3 | KTear => 2 | KTearEnd => 1 | KAdvance => 1 | KCreate _ l => 11 + 15 * length l
  | KCall _ _ => 15 | KAfterNext _ => 10 | KInnerCompleted _ => 4 | KUnsub _ | KUnsubFrom _ => 9
  | KOnUnsub _ => 8 | KOnUnsub2 => 6 | KSubscribed _ => 10 | KCheck => 15 | KFree _ => 1
  end.
Fixpoint weights K : nat := match K with [] => 0 | c :: K' => weight c + weights K' end.
Fixpoint waiting (q : list (nat * list (ncall A E))) : nat :=
  match q with [] => 0 | (_, l) :: q' => 11 + 15 * length l + waiting q' end.
Definition size s : nat := 9 * length (concat (s_slab s)) + waiting (s_queue s).

Lemma weights_app : forall K K', weights (K ++ K') = weights K + weights K'.
Proof. induction K; cbn; intros; auto. rewrite IHK. lia. Qed.
Lemma replace_length : forall (l : list (list nat)) n y i, nth_error l n = Some y ->
  length (concat (firstn n l ++ (y ++ [i]) :: skipn (S n) l)) = length (concat l) + 1.
Proof.
  induction l as [|x l IH]; intros [|n] y i H; try discriminate.
  - injection H as <-. cbn. rewrite !app_length. cbn. lia.
  - cbn in H. specialize (IH n y i H). cbn [firstn app concat skipn] in *. rewrite !app_length. lia.
Qed.

Lemma unsub_less : forall i s s' K1, do_unsub i s = Some (s', K1) -> weights K1 + size s' < 9 + size s.
Proof.
  intros i s s' K1 R. unfold do_unsub in R. destruct (i_closed _); [inversion R; subst; cbn; lia|].
  destruct (minus_one _); [|discriminate]. destruct (if i_completed _ then _ else _); [|discriminate]. inversion R; subst.
  unfold size. cbn. destruct (_ && _); cbn; lia.
Qed.
Lemma step_less : forall c s s' K1, step c s = Some (s', K1) -> weights K1 + size s' < weight c + size s.
Proof.
  intros c s s' K1 R. destruct c as [m| | | |i l|i m|i|i|i|i|i| |i| |i]; cbn [HoModel.step] in R.
  - destruct (t_shut (s_told s)); [inversion R; subst; cbn; lia|]. destruct k; [destruct (t_shut (s_told _))| |]; inversion R; subst; unfold size; cbn; lia.
  - destruct (s_torn s); [inversion R; subst; cbn; lia|]. destruct k; inversion R; subst; unfold size; cbn; try lia.
    rewrite weights_app. cbn. clear R. assert (Q : forall l : list nat, weights (map (@KUnsubFrom A E) l) = 9 * length l) by (induction l; cbn in *; lia).
    rewrite Q. lia.
  - inversion R; subst. unfold size. cbn. lia.
  - destruct (s_queue s) as [|[i l] q] eqn:Q; inversion R; subst; unfold size; cbn; rewrite ?Q; cbn; lia.
  - inversion R; subst. rewrite weights_app.
    assert (Q : weights (map (KCall i) l) = 15 * length l) by (clear R; induction l; cbn in *; lia). rewrite Q.
    destruct k; unfold size; cbn; rewrite ?concat_app, ?app_length; cbn; lia.
  - destruct (_ || _); [inversion R; subst; cbn; lia|]. destruct m.
    + inversion R; subst. unfold size. cbn. lia.
    + destruct (set_error _); [|discriminate]. inversion R; subst. unfold size. cbn. lia.
    + inversion R; subst. rewrite weights_app. unfold size. cbn. destruct k; [destruct (i_oc _)| |]; cbn; lia.
    + inversion R; subst. unfold size. cbn. lia.
  - destruct (t_shut (s_told s)); inversion R; subst; unfold size; cbn; lia.
  - destruct (s_nc s); [discriminate|]. destruct (can_downstream_complete _); [destruct (set_complete _); [|discriminate]|]; inversion R; subst; unfold size; cbn; lia.
  - apply (@unsub_less _ _ _ _ R).
  - destruct (existsb _ _); [inversion R; subst; cbn; lia|]. apply (@unsub_less _ _ _ _ R).
  - destruct k; inversion R; subst; [destruct (_ && _)|destruct (can_downstream_unsubscribe _)|destruct (can_downstream_unsubscribe _)]; cbn; lia.
  - inversion R; subst. destruct (_ && _); cbn; lia.
  - destruct (i_closed _); [inversion R; subst; cbn; lia|]. destruct k.
    + destruct (nth_error _ _) as [l|] eqn:Q; inversion R; subst; [|cbn; lia]. unfold size. cbn [s_slab with_slab s_queue].
      pose proof (@replace_length _ _ _ i Q) as Z. cbn [skipn] in Z. rewrite Z. cbn. lia.
    + inversion R; subst. unfold size. cbn. lia.
    + inversion R; subst. unfold size. cbn. lia.
  - destruct (_ && _); inversion R; subst; [|cbn; lia]. destruct (s_cur s); unfold size; cbn; lia.
  - inversion R; subst. unfold size. cbn. lia.
Qed.

Lemma drive_ends : forall fuel K s, weights K + size s <= fuel -> drive down k fuel K s <> Hang.
Proof.
  induction fuel as [|n IH]; intros K s H; destruct K as [|c K]; cbn [drive]; try discriminate.
  - cbn [weights] in H. assert (0 < weight c) by (destruct c; cbn; lia). lia.
  - destruct (step c s) as [[s' K1]|] eqn:R; [|discriminate]. apply IH. pose proof (step_less _ _ R). rewrite weights_app. cbn [weights] in H. lia.
Qed.
Lemma drive_more : forall fuel K s fuel', fuel <= fuel' -> drive down k fuel K s <> Hang -> drive down k fuel' K s = drive down k fuel K s.
Proof.
  induction fuel as [|n IH]; intros K s fuel' Hf H; destruct K as [|c K]; destruct fuel'; cbn [drive] in *; try reflexivity; try lia; try (exfalso; now apply H).
  destruct (step c s) as [[s' K1]|]; auto. apply IH; [lia|auto].
Qed.
Lemma flatten_ends : forall h s, exists fuel, forall fuel', fuel <= fuel' -> flatten down k fuel' h s <> Hang.
Proof.
  induction h as [|a h IH]; intros s; [exists 0; cbn; discriminate|]. cbn [flatten].
  destruct (perform k a s) as [[s' K]|]; [|exists 0; discriminate].
  set (f := weights K + size s'). assert (Hf := @drive_ends f K s' (le_n _)).
  destruct (drive down k f K s') as [s1| |] eqn:Ed; [|exists f|contradiction].
  - destruct (IH s1) as [f1 H1]. exists (f + f1). intros f' Hf'. rewrite (@drive_more f K s' f') by (try lia; congruence). rewrite Ed. apply H1. lia.
  - intros f' Hf'. rewrite (@drive_more f K s' f') by (try lia; congruence). rewrite Ed. discriminate.
Qed.
End Stop.
