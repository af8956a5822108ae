(** Proofs about SharedModel. *)
From Verif Require Import Base SubscrModel SharedModel SharedSpec.
Set Implicit Arguments.

Section OneThread.
Context {A E : Type} (D : dest A E).
Implicit Types s : shared D.

Definition no_close (l : list (ncall A E)) : Prop := forall n, In n l -> closing n = false.

Lemma no_close_app : forall l1 l2, no_close (l1 ++ l2) <-> no_close l1 /\ no_close l2.
Proof.
  unfold no_close. split; [intros H; split; intros; apply H; apply in_or_app; auto|].
  intros [H1 H2] n Hn. apply in_app_or in Hn. destruct Hn; auto.
Qed.

Lemma no_close_or_split : forall l : list (ncall A E),
  no_close l \/ exists l1 c l2, l = l1 ++ c :: l2 /\ no_close l1 /\ closing c = true.
Proof.
  induction l as [|n l IH]; [left; intros ? []|].
  destruct (closing n) eqn:Hn.
  - right. exists [], n, l. repeat split; auto. intros ? [].
  - destruct IH as [IH|(l1 & c & l2 & -> & H1 & H2)].
    + left. intros m [<-|Hm]; auto.
    + right. exists (n :: l1), c, l2. repeat split; auto. intros m [<-|Hm]; auto.
Qed.

(** ** Calls from inside *)

Definition same_but_q s s' : Prop :=
  sh_dst s' = sh_dst s /\ sh_flag s' = sh_flag s /\ sh_log s' = sh_log s.

Lemma same_trans : forall s1 s2 s3, same_but_q s1 s2 -> same_but_q s2 s3 -> same_but_q s1 s3.
Proof. unfold same_but_q. intros s1 s2 s3 (H1&H2&H3) (H4&H5&H6). repeat split; congruence. Qed.

Lemma locked_call_same : forall s n, same_but_q s (locked_call s n).
Proof.
  intros s [a|e| |]; unfold same_but_q, locked_call, defer, st_closed; cbn;
    destruct s as [? ? [] [] [] [] ?]; cbn; auto.
Qed.

Lemma locked_calls_same : forall ns s, same_but_q s (locked_calls s ns).
Proof.
  induction ns as [|n ns IH]; intros s; cbn.
  - repeat split.
  - eapply same_trans; [apply locked_call_same|apply IH].
Qed.

(** Once closing was observed, only an unsubscribe can still be queued. *)
Definition all_uns (l : list (ncall A E)) : Prop := forall n, In n l -> n = Uns.

Lemma locked_calls_closed : forall ns s, st_closed s = true ->
  st_closed (locked_calls s ns) = true /\
  exists j, sh_q (locked_calls s ns) = sh_q s ++ j /\ all_uns j /\
    (sh_flag s = true -> j = []) /\ (sh_uns s = true -> j = []) /\
    length j <= 1 /\ (j <> [] -> sh_uns (locked_calls s ns) = true) /\
    (sh_uns s = true -> sh_uns (locked_calls s ns) = true).
Proof.
  induction ns as [|n ns IH]; intros s Hc; cbn.
  - split; auto. exists []. rewrite app_nil_r. repeat split; auto; try (intros ? []).
  - assert (Hs : (locked_call s n = s \/
       (n = Uns /\ sh_uns s = false /\ sh_flag s = false /\
        locked_call s n = set_q (set_uns s) (sh_q s ++ [Uns])) \/
       (n = Uns /\ sh_uns s = false /\ sh_flag s = true /\ locked_call s n = set_uns s))).
    { destruct n; cbn; rewrite ?Hc; auto.
      unfold defer; cbn. destruct (sh_uns s) eqn:Hu; auto.
      destruct (sh_flag s) eqn:Hf; cbn; auto 6. }
    destruct Hs as [->|[(-> & Hu & Hf & ->)|(-> & Hu & Hf & ->)]].
    + apply IH; auto.
    + edestruct (IH (set_q (set_uns s) (sh_q s ++ [Uns])))
        as (H1 & j & H2 & H3 & H4 & H5 & H6 & H7 & H8).
      { unfold st_closed; cbn. rewrite !orb_true_r; auto. }
      cbn in *. split; auto. specialize (H5 eq_refl). subst j. rewrite app_nil_r in H2.
      exists [Uns]. repeat split; auto; try congruence.
      intros m [<-|[]]; auto.
    + edestruct (IH (set_uns s)) as (H1 & j & H2 & H3 & H4 & H5 & H6 & H7 & H8).
      { unfold st_closed; cbn. rewrite !orb_true_r; auto. }
      cbn in *. split; auto. specialize (H5 eq_refl). subst j.
      exists []. repeat split; auto; try congruence.
Qed.

Lemma locked_calls_open : forall ns s, st_closed s = false -> no_close ns ->
  locked_calls s ns = set_q s (sh_q s ++ ns).
Proof.
  induction ns as [|n ns IH]; intros s Hc Hn; cbn.
  - rewrite app_nil_r. destruct s; reflexivity.
  - destruct n; try (specialize (Hn _ (or_introl eq_refl)); discriminate).
    cbn. rewrite Hc. unfold defer.
    assert (Hf : sh_flag s = false).
    { unfold st_closed in Hc. destruct (sh_flag s); cbn in Hc; auto. }
    rewrite Hf. cbn.
    replace (set_q s (sh_q s ++ Nxt i :: ns))
      with (set_q (set_q s (sh_q s ++ [Nxt i])) (sh_q (set_q s (sh_q s ++ [Nxt i])) ++ ns)).
    + apply IH; auto. intros m Hm. apply Hn. right; auto.
    + cbn. rewrite <- app_assoc. reflexivity.
Qed.

Lemma locked_calls_app : forall n1 n2 s,
  locked_calls s (n1 ++ n2) = locked_calls (locked_calls s n1) n2.
Proof. intros. unfold locked_calls. apply fold_left_app. Qed.

Lemma open_flags : forall s, st_closed s = false ->
  sh_flag s = false /\ sh_cmp s = false /\ sh_uns s = false /\ sh_err s = false.
Proof.
  intros s H. unfold st_closed in H. destruct s as [? ? [] [] [] [] ?]; cbn in *; auto.
Qed.

Lemma locked_calls_closing : forall l1 c l2 s, st_closed s = false -> no_close l1 ->
  closing c = true ->
  st_closed (locked_calls s (l1 ++ c :: l2)) = true /\
  exists j, sh_q (locked_calls s (l1 ++ c :: l2)) = sh_q s ++ l1 ++ c :: j /\ all_uns j.
Proof.
  intros l1 c l2 s Hc H1 H2. rewrite locked_calls_app, (locked_calls_open s Hc H1).
  set (s1 := set_q s (sh_q s ++ l1)).
  assert (Hc1 : st_closed s1 = false) by exact Hc.
  destruct (open_flags s1 Hc1) as (Hf & Hm & Hu & He).
  assert (Hs : st_closed (locked_call s1 c) = true /\
               sh_q (locked_call s1 c) = sh_q s1 ++ [c]).
  { destruct c; try discriminate; unfold locked_call; rewrite ?Hc1, ?Hu; unfold defer;
      clearbody s1; destruct s1; cbn in *; subst; cbn; auto. }
  destruct Hs as [Hs1 Hs2]. cbn [locked_calls fold_left].
  fold (locked_calls (locked_call s1 c) l2).
  destruct (locked_calls_closed l2 _ Hs1) as (H3 & j & H4 & H5 & _).
  split; auto. exists j. split; auto. rewrite H4, Hs2. unfold s1; cbn.
  rewrite <- !app_assoc. reflexivity.
Qed.

(** ** The queue against the specification *)

(** What is really queued for a list of calls made. *)
Definition cut_at (p actual : list (ncall A E)) : Prop :=
  exists p1 c p2 j, p = p1 ++ c :: p2 /\ no_close p1 /\ closing c = true /\
    actual = p1 ++ c :: j.

Definition pending s (batch b q : list (ncall A E)) : Prop :=
  (no_close b /\ batch = b /\
     ((no_close q /\ sh_q s = q /\ st_closed s = false) \/
      (cut_at q (sh_q s) /\ st_closed s = true))) \/
  (cut_at b batch /\ st_closed s = true).

Lemma flag_open : forall s, st_closed s = false -> sh_flag s = false.
Proof. intros s. unfold st_closed. destruct (sh_flag s); auto. Qed.

Lemma deliver_flag : forall s n, sh_flag (deliver s n) = sh_flag s.
Proof.
  intros. unfold deliver. destruct (locked_calls_same (snd (react D (sh_dst s) n))
    (set_dst s (fst (react D (sh_dst s) n)) n)) as (_ & H & _). exact H.
Qed.

Lemma deliver_dst : forall s n, sh_dst (deliver s n) = fst (react D (sh_dst s) n).
Proof.
  intros. unfold deliver. destruct (locked_calls_same (snd (react D (sh_dst s) n))
    (set_dst s (fst (react D (sh_dst s) n)) n)) as (H & _ & _). exact H.
Qed.

Lemma deliver_log : forall s n, sh_log (deliver s n) = sh_log s ++ [n].
Proof.
  intros. unfold deliver. destruct (locked_calls_same (snd (react D (sh_dst s) n))
    (set_dst s (fst (react D (sh_dst s) n)) n)) as (_ & _ & H). exact H.
Qed.

(** The calls made in a reaction enter the line. *)
Lemma pending_deliver : forall s n b bs q,
  pending s bs b q ->
  pending (deliver s n) bs b (q ++ snd (react D (sh_dst s) n)).
Proof.
  intros s n b bs q H. unfold deliver.
  set (cs := snd (react D (sh_dst s) n)).
  set (s1 := set_dst s (fst (react D (sh_dst s) n)) n).
  destruct H as [(H1 & -> & [(H2 & H3 & H4)|(H2 & H3)])|(H1 & H2)].
  - left. split; auto. split; auto.
    assert (H4' : st_closed s1 = false) by exact H4.
    destruct (no_close_or_split cs) as [Hn|(l1 & c & l2 & Hcs & Hl1 & Hc)].
    + left. rewrite (locked_calls_open s1 H4' Hn). cbn. rewrite H3.
      split; [apply no_close_app; auto|]. split; auto.
    + right. rewrite Hcs.
      destruct (@locked_calls_closing l1 c l2 s1 H4' Hl1 Hc) as (H5 & j & H6 & _).
      split; auto. rewrite H6. exists (q ++ l1), c, l2, j. cbn. rewrite H3.
      rewrite <- !app_assoc. repeat split; auto. apply no_close_app; auto.
  - left. split; auto. split; auto. right.
    assert (H3' : st_closed s1 = true) by exact H3.
    destruct (@locked_calls_closed cs s1 H3') as (H4 & j & H5 & _).
    split; auto. destruct H2 as (p1 & c & p2 & j2 & -> & Hp & Hc & Hq).
    exists p1, c, (p2 ++ cs), (j2 ++ j). rewrite H5. cbn. rewrite Hq.
    rewrite <- !app_assoc. repeat split; auto.
  - right. split; auto. apply (@locked_calls_closed cs s1 H2).
Qed.

(** With the flag set nothing is delivered any more. *)
Lemma apply_flagged : forall bs s, sh_flag s = true -> fold_left (@apply_one A E D) bs s = s.
Proof.
  induction bs as [|n bs IH]; intros s Hf; cbn; auto.
  replace (apply_one s n) with s; [apply IH; auto|].
  unfold apply_one. rewrite Hf. destruct (closing n); auto.
  unfold set_flag. destruct s; cbn in *. rewrite Hf. reflexivity.
Qed.

Lemma apply_queue_flagged : forall left s, sh_flag s = true ->
  (sh_q s = [] -> 1 <= left) -> (sh_q s <> [] -> 2 <= left) ->
  exists s', apply_queue left s = Fine s' /\ sh_log s' = sh_log s /\
    sh_dst s' = sh_dst s /\ sh_q s' = [] /\ sh_flag s' = true.
Proof.
  intros left s Hf H1 H2. destruct left as [|left].
  { destruct (sh_q s) as [|n l]; [specialize (H1 eq_refl)|specialize (H2 ltac:(discriminate))]; lia. }
  cbn [apply_queue]. destruct (sh_q s) as [|n l] eqn:Hq.
  - exists s. auto.
  - rewrite apply_flagged by exact Hf.
    assert (1 <= left) by (specialize (H2 ltac:(discriminate)); lia).
    destruct left; [lia|]. cbn [apply_queue]. exists (set_q s []). cbn. auto.
Qed.

Lemma apply_one_q : forall s n, exists j, sh_q (apply_one s n) = sh_q s ++ j.
Proof.
  intros. unfold apply_one.
  assert (H : exists j, sh_q (if sh_flag s then s else deliver s n) = sh_q s ++ j).
  { destruct (sh_flag s) eqn:Hf; [exists []; rewrite app_nil_r; auto|].
    unfold deliver. set (cs := snd _). set (s1 := set_dst _ _ _).
    change (sh_q s) with (sh_q s1).
    destruct (st_closed s1) eqn:Hc.
    - destruct (@locked_calls_closed cs s1 Hc) as (_ & j & H & _). eauto.
    - destruct (no_close_or_split cs) as [Hn|(l1 & c & l2 & Hcs & Hl1 & Hcl)].
      + rewrite (locked_calls_open s1 Hc Hn). cbn. eauto.
      + rewrite Hcs. destruct (@locked_calls_closing l1 c l2 s1 Hc Hl1 Hcl) as (_ & j & H & _).
        eauto. }
  destruct (closing n); cbn; auto.
Qed.

Lemma fold_q : forall bs s, exists j, sh_q (fold_left (@apply_one A E D) bs s) = sh_q s ++ j.
Proof.
  induction bs as [|n bs IH]; intros s; cbn.
  - exists []. rewrite app_nil_r; auto.
  - destruct (IH (apply_one s n)) as [j Hj], (apply_one_q s n) as [j' Hj'].
    exists (j' ++ j). rewrite Hj, Hj', app_assoc. reflexivity.
Qed.

Lemma cut_at_head : forall n b bs, cut_at (n :: b) bs -> closing n = false ->
  exists bs', bs = n :: bs' /\ cut_at b bs'.
Proof.
  intros n b bs (p1 & c & p2 & j & H1 & H2 & H3 & ->) Hn.
  destruct p1 as [|m p1]; cbn in H1; inversion H1; subst.
  - congruence.
  - exists (p1 ++ c :: j). split; auto. exists p1, c, p2, j. repeat split; auto.
    apply (no_close_app [m] p1) in H2. tauto.
Qed.

Lemma cut_at_close : forall n b bs, cut_at (n :: b) bs -> closing n = true ->
  exists bs', bs = n :: bs'.
Proof.
  intros n b bs (p1 & c & p2 & j & H1 & H2 & H3 & ->) Hn.
  destruct p1 as [|m p1]; cbn in H1; inversion H1; subst; cbn; eauto.
Qed.

Lemma cut_at_nil : forall b, ~ cut_at [] b.
Proof. intros b (p1 & c & p2 & j & H & _). destruct p1; discriminate. Qed.

(** Head of the line. *)
Lemma pending_next : forall s bs n b q, pending s bs (n :: b) q -> closing n = false ->
  sh_flag s = false ->
  exists bs', bs = n :: bs' /\ apply_one s n = deliver s n /\
    pending (deliver s n) bs' b (q ++ snd (react D (sh_dst s) n)).
Proof.
  intros s bs n b q Hp Hn Hf.
  assert (exists bs', bs = n :: bs' /\ pending s bs' b q) as (bs' & -> & Hp').
  { destruct Hp as [(H1 & -> & H2)|(H1 & H2)].
    - exists b. split; auto. left. apply (no_close_app [n] b) in H1. tauto.
    - destruct (cut_at_head H1 Hn) as (bs' & -> & H3). exists bs'. split; auto. right; auto. }
  exists bs'. split; auto. split.
  - unfold apply_one. rewrite Hf, Hn. reflexivity.
  - apply pending_deliver; auto.
Qed.

Definition after s l d' s' : Prop :=
  sh_log s' = sh_log s ++ l /\ sh_dst s' = d' /\ sh_q s' = [] /\
  sh_flag s' = existsb closing l /\ (sh_flag s' = false -> st_closed s' = false).

Lemma existsb_no_close : forall l, no_close l -> existsb closing l = false.
Proof.
  induction l as [|n l IH]; intros H; cbn; auto.
  rewrite (H n (or_introl eq_refl)), IH; auto. intros m Hm. apply H. right; auto.
Qed.

Lemma pending_shift : forall s q, pending s [] [] q -> pending (set_q s []) (sh_q s) q [].
Proof.
  intros s q [(H1 & H2 & [(H3 & H4 & H5)|(H3 & H4)])|(H1 & H2)].
  - left. split; [auto|]. split; [auto|]. left. split; [intros ? []|]. split; auto.
  - right. split; auto.
  - destruct (cut_at_nil H1).
Qed.

Lemma pending_nil_batch : forall s bs q, pending s bs [] q -> bs = [].
Proof. intros s bs q [(H1 & H2 & H3)|(H1 & H2)]; auto. destruct (cut_at_nil H1). Qed.

Lemma pending_nil_q : forall s b bs q, pending s bs b q -> no_close b -> q = [] -> sh_q s = [].
Proof.
  intros s b bs q [(H1 & H2 & [(H3 & H4 & H5)|(H3 & H4)])|(H1 & H2)] Hb ->; auto.
  - destruct (cut_at_nil H3).
  - destruct H1 as (p1 & c & p2 & j & -> & H3 & H4 & _). apply no_close_app in Hb.
    destruct Hb as [_ Hb]. specialize (Hb c (or_introl eq_refl)). congruence.
Qed.

Definition tag (g : nat) (l : list (ncall A E)) := map (pair g) l.

(** If the calls do cascade within [G] generations, the queue delivers them. *)
Lemma cascade_runs : forall G d todo d' l, cascade D G d todo d' l ->
  forall g left s bs b q,
    todo = tag g b ++ tag (S g) q -> sh_dst s = d -> sh_flag s = false ->
    pending s bs b q -> left + g = S G -> 1 <= left -> (sh_q s <> [] -> g < G) ->
    exists s', apply_queue left (fold_left (@apply_one A E D) bs s) = Fine s' /\ after s l d' s'.
Proof.
  induction 1 as [d|d g0 n todo d' cs Hn Hr Hg|d g0 n todo d1 cs d' l Hn Hr Hg _ IH];
    intros g left s bs b q Ht Hd Hf Hp Hl Hl1 Hq.
  - destruct b; [|discriminate]. destruct q; [|discriminate].
    pose proof (pending_nil_batch Hp) as ->. cbn.
    assert (Hq0 : sh_q s = []) by (eapply pending_nil_q; eauto; intros ? []).
    exists s. destruct left; [lia|]. cbn. rewrite Hq0. split; auto.
    unfold after. rewrite app_nil_r. repeat split; auto.
    intros _. destruct Hp as [(_ & _ & [(_ & _ & H)|(H & _)])|(H & _)]; auto;
      destruct (cut_at_nil H).
  - (* closing *)
    assert (Main : forall g left s bs b q,
      (g0, n) :: todo = tag g (n :: b) ++ tag (S g) q -> sh_dst s = d -> sh_flag s = false ->
      pending s bs (n :: b) q -> left + g = S G -> 1 <= left -> (sh_q s <> [] -> g < G) ->
      exists s', apply_queue left (fold_left (@apply_one A E D) bs s) = Fine s' /\
        after s [n] d' s').
    { clear g left s bs b q Ht Hd Hf Hp Hl Hl1 Hq.
      intros g left s bs b q Ht Hd Hf Hp Hl Hl1 Hq. injection Ht as -> _.
      assert (exists bs', bs = n :: bs') as (bs' & ->).
      { destruct Hp as [(H1 & -> & H2)|(H1 & H2)]; [eauto|eapply cut_at_close; eauto]. }
      cbn [fold_left]. unfold apply_one at 2. rewrite Hf, Hn.
      rewrite apply_flagged by reflexivity.
      destruct (apply_one_q s n) as [j Hj]. unfold apply_one in Hj. rewrite Hf, Hn in Hj.
      destruct (@apply_queue_flagged left (set_flag (deliver s n)) eq_refl)
        as (s' & H1 & H2 & H3 & H4 & H5).
      { intros; lia. }
      { intros Hne. destruct Hg as [->|Hg]; [|lia].
        assert (g < G); [|lia]. apply Hq. cbn in Hne. intros E0. apply Hne.
        unfold deliver. rewrite Hd, Hr. cbn. exact E0. }
      exists s'. split; auto. unfold after. rewrite H2, H3, H4. cbn.
      rewrite deliver_log, deliver_dst, Hd, Hr, Hn, H5. cbn. repeat split; auto.
      intros; discriminate. }
    destruct b as [|n' b].
    + pose proof (pending_nil_batch Hp) as ->. cbn [fold_left].
      destruct q as [|n' q]; [discriminate|]. pose proof Ht as Ht'. injection Ht as -> -> _.
      assert (Hne : sh_q s <> []).
      { destruct Hp as [(_ & _ & [(_ & H & _)|(H & _)])|(H & _)].
        - rewrite H; discriminate.
        - destruct (cut_at_close H Hn) as [? ->]. discriminate.
        - destruct (cut_at_nil H). }
      specialize (Hq Hne). destruct left as [|left]; [lia|]. cbn.
      destruct (sh_q s) as [|x xs] eqn:Hsq; [congruence|].
      destruct (Main (S g) left (set_q s []) (x :: xs) q []) as (s' & H1 & H2); auto; try lia.
      { cbn [tag map]. rewrite app_nil_r. exact Ht'. }
      { rewrite <- Hsq. apply pending_shift; auto. }
      { intros Hx; exfalso; apply Hx; reflexivity. }
      exists s'. split; [exact H1|exact H2].
    + pose proof Ht as Ht'. injection Ht as -> -> _. eapply Main; eauto.
  - (* next *)
    assert (Main : forall g left s bs b q,
      (g0, n) :: todo = tag g (n :: b) ++ tag (S g) q -> sh_dst s = d -> sh_flag s = false ->
      pending s bs (n :: b) q -> left + g = S G -> 1 <= left -> (sh_q s <> [] -> g < G) ->
      exists s', apply_queue left (fold_left (@apply_one A E D) bs s) = Fine s' /\
        after s (n :: l) d' s').
    { clear g left s bs b q Ht Hd Hf Hp Hl Hl1 Hq.
      intros g left s bs b q Ht Hd Hf Hp Hl Hl1 Hq. cbn in Ht. injection Ht as -> ->.
      destruct (pending_next Hp Hn Hf) as (bs' & -> & H1 & H2).
      cbn [fold_left]. rewrite H1. rewrite Hd, Hr in H2. cbn in H2.
      destruct (IH g left (deliver s n) bs' b (q ++ cs)) as (s' & H3 & H4); auto.
      { unfold tag. rewrite <- app_assoc, map_app. reflexivity. }
      { rewrite deliver_dst, Hd, Hr. reflexivity. }
      { rewrite deliver_flag; auto. }
      { intros Hne. destruct Hg as [->|Hg]; auto. apply Hq. intros E0. apply Hne.
        unfold deliver. rewrite Hd, Hr. cbn. exact E0. }
      exists s'. split; auto. destruct H4 as (H4 & H5 & H6 & H7 & H8).
      unfold after. rewrite H4, deliver_log, <- app_assoc. cbn. rewrite Hn. cbn. auto. }
    destruct b as [|n' b].
    + pose proof (pending_nil_batch Hp) as ->. cbn [fold_left].
      destruct q as [|n' q]; [discriminate|]. pose proof Ht as Ht'. injection Ht as -> -> _.
      assert (Hne : sh_q s <> []).
      { destruct Hp as [(_ & _ & [(_ & H & _)|(H & _)])|(H & _)].
        - rewrite H; discriminate.
        - destruct (cut_at_head H Hn) as (? & -> & _). discriminate.
        - destruct (cut_at_nil H). }
      specialize (Hq Hne). destruct left as [|left]; [lia|]. cbn.
      destruct (sh_q s) as [|x xs] eqn:Hsq; [congruence|].
      destruct (Main (S g) left (set_q s []) (x :: xs) q []) as (s' & H1 & H2); auto; try lia.
      { cbn [tag map]. rewrite app_nil_r. exact Ht'. }
      { rewrite <- Hsq. apply pending_shift; auto. }
      { intros Hx; exfalso; apply Hx; reflexivity. }
      exists s'. split; [exact H1|exact H2].
    + pose proof Ht as Ht'. injection Ht as -> -> _. eapply Main; eauto.
Qed.

(** Otherwise it panics. *)
Lemma panics_if_q : forall s bs, sh_q s <> [] ->
  exists s', apply_queue 1 (fold_left (@apply_one A E D) bs s) = Panicked s'.
Proof.
  intros s bs H. destruct (fold_q bs s) as [j Hj].
  cbn. destruct (sh_q (fold_left _ bs s)) eqn:Hq; eauto.
  symmetry in Hj. apply app_eq_nil in Hj. tauto.
Qed.

Lemma runs_or_panics : forall left G g s bs b q,
  sh_flag s = false -> pending s bs b q -> left + g = S G -> 1 <= left ->
  (exists d' l, cascade D (S G) (sh_dst s) (tag g b ++ tag (S g) q) d' l) \/
  (exists s', apply_queue left (fold_left (@apply_one A E D) bs s) = Panicked s').
Proof.
  induction left as [|left IHl]; intros G g s bs b; [intros; lia|].
  revert s bs. induction b as [|n b IHb]; intros s bs q Hf Hp Hl _.
  - pose proof (pending_nil_batch Hp) as ->. cbn [fold_left tag map app].
    destruct q as [|n q].
    + left. exists (sh_dst s), []. constructor.
    + assert (Hne : sh_q s <> []).
      { destruct Hp as [(_ & _ & [(_ & H & _)|(H & _)])|(H & _)].
        - rewrite H; discriminate.
        - destruct (closing n) eqn:Hn.
          + destruct (cut_at_close H Hn) as [? ->]. discriminate.
          + destruct (cut_at_head H Hn) as (? & -> & _). discriminate.
        - destruct (cut_at_nil H). }
      destruct left as [|left].
      { right. apply (@panics_if_q s [] Hne). }
      destruct (IHl G (S g) (set_q s []) (sh_q s) (n :: q) [] Hf) as [(d' & l & H)|(s' & H)];
        try lia.
      { apply pending_shift; auto. }
      * left. exists d', l. cbn [tag map] in H. rewrite app_nil_r in H. exact H.
      * right. exists s'. remember (S left) as left1. cbn.
        destruct (sh_q s) eqn:Hq; [congruence|]. exact H.
  - destruct (react D (sh_dst s) n) as [d1 cs] eqn:Hr.
    destruct (closing n) eqn:Hn.
    + left. exists d1, [n]. cbn. eapply cascade_close; eauto. right; lia.
    + destruct (pending_next Hp Hn Hf) as (bs' & -> & H1 & H2).
      rewrite Hr in H2. cbn in H2. cbn [fold_left]. rewrite H1.
      destruct (IHb (deliver s n) bs' (q ++ cs)) as [(d' & l & H)|H]; auto; try lia.
      { rewrite deliver_flag; auto. }
      left. exists d', (n :: l). cbn. eapply cascade_next; eauto; [right; lia|].
      rewrite deliver_dst, Hr in H. cbn in H. unfold tag in *.
      rewrite map_app, app_assoc in H. exact H.
Qed.

(** ** Histories of calls from outside *)

Lemma apply_queue_S : forall k s, apply_queue (S k) s =
  match sh_q s with
  | [] => Fine s
  | ns => apply_queue k (fold_left (@apply_one A E D) ns (set_q s []))
  end.
Proof. reflexivity. Qed.

Lemma apply_empty : forall s, sh_q s = [] -> apply_queue max_depth s = Fine s.
Proof.
  intros s H. change max_depth with (S 9). generalize 9. intros k.
  rewrite apply_queue_S, H. reflexivity.
Qed.

Lemma try_apply_queue : forall s, try_apply s = apply_queue max_depth s.
Proof.
  intros s. unfold try_apply. destruct (sh_q s) eqn:H; auto. rewrite apply_empty; auto.
Qed.

Lemma top_next_mid : forall s a, sh_q s = [] -> sh_closed s = false ->
  top_call s (Nxt a) = apply_queue max_depth (fold_left (@apply_one A E D) [Nxt a] s).
Proof.
  intros s a Hq Hc. unfold top_call. rewrite Hc. unfold try_obs. rewrite apply_empty by auto.
  cbn [andthen fold_left]. rewrite try_apply_queue. f_equal.
  unfold apply_one. cbn [closing].
  unfold sh_closed in Hc. apply orb_false_iff in Hc as [Hc _].
  rewrite (flag_open s Hc). reflexivity.
Qed.

Lemma closed_parts : forall s, sh_closed s = false ->
  st_closed s = false /\ sh_flag s = false /\ dclosed D (sh_dst s) = false.
Proof.
  intros s H. unfold sh_closed in H. apply orb_false_iff in H as [H1 H2].
  split; auto. split; auto. apply flag_open; auto.
Qed.

Lemma top_next_pending : forall s a, sh_q s = [] -> sh_closed s = false ->
  pending s [Nxt a] [Nxt a] [].
Proof.
  intros s a Hq Hc. apply closed_parts in Hc as (Hc & _). left.
  split; [intros ? [<-|[]]; reflexivity|]. split; auto. left. repeat split; auto.
  intros ? [].
Qed.

Lemma top_next_cascade : forall s a d' l, sh_q s = [] -> sh_closed s = false ->
  cascade D 9 (sh_dst s) [(0, Nxt a)] d' l ->
  exists s', top_call s (Nxt a) = Fine s' /\ after s l d' s'.
Proof.
  intros s a d' l Hq Hc Hcas. rewrite top_next_mid by auto.
  pose proof (@top_next_pending s a Hq Hc) as Hp. apply closed_parts in Hc as (Hc & Hf & _).
  eapply (cascade_runs Hcas (g := 0) (b := [Nxt a]) (q := [])); eauto.
  - unfold max_depth; lia.
  - unfold max_depth; lia.
Qed.

Lemma top_next_fine : forall s a s', sh_q s = [] -> sh_closed s = false ->
  top_call s (Nxt a) = Fine s' ->
  exists l, cascade D 10 (sh_dst s) [(0, Nxt a)] (sh_dst s') l /\ after s l (sh_dst s') s'.
Proof.
  intros s a s' Hq Hc Hr. rewrite top_next_mid in Hr by auto.
  pose proof (@top_next_pending s a Hq Hc) as Hp. apply closed_parts in Hc as (Hc & Hf & _).
  destruct (@runs_or_panics 10 9 0 s [Nxt a] [Nxt a] [] Hf Hp) as [(d' & l & H)|(s2 & H)];
    try lia.
  - assert (H11 : exists s2, apply_queue 11 (fold_left (@apply_one A E D) [Nxt a] s) = Fine s2
                             /\ after s l d' s2).
    { eapply (cascade_runs H (g := 0) (b := [Nxt a]) (q := [])); eauto; try lia; try reflexivity. }
    assert (Hmono : forall left x y, apply_queue (D := D) left x = Fine y ->
                      apply_queue (S left) x = Fine y).
    { induction left as [|left IH]; intros x y; [discriminate|].
      intros Hx. cbn in Hx. destruct (sh_q x) eqn:Hqx.
      - remember (S left) as k. cbn. rewrite Hqx. auto.
      - apply IH in Hx. remember (S left) as k. cbn. rewrite Hqx. exact Hx. }
    destruct H11 as (s2 & H1 & H2). apply Hmono in Hr. unfold max_depth in Hr.
    rewrite H1 in Hr. inversion Hr; subst. pose proof H2 as (_ & H3 & _).
    exists l. rewrite H3. split; auto.
  - unfold max_depth in Hr. rewrite H in Hr. discriminate.
Qed.

(** A cascade closes at most once. *)
Lemma cascade_closes : forall G d todo d' l, cascade D G d todo d' l ->
  no_close l \/ exists l1 c, l = l1 ++ [c] /\ no_close l1 /\ closing c = true.
Proof.
  induction 1 as [d|d g0 n todo d' cs Hn Hr Hg|d g0 n todo d1 cs d' l Hn Hr Hg _ IH].
  - left. intros ? [].
  - right. exists [], n. repeat split; auto. intros ? [].
  - destruct IH as [IH|(l1 & c & -> & H1 & H2)].
    + left. intros m [<-|Hm]; auto.
    + right. exists (n :: l1), c. repeat split; auto. intros m [<-|Hm]; auto.
Qed.

Lemma closes_once_app : forall l1 l2, no_close l1 -> closes_once l2 -> closes_once (l1 ++ l2).
Proof.
  induction l1 as [|n l1 IH]; intros l2 H1 H2; cbn; auto.
  pose proof (H1 n (or_introl eq_refl)). destruct n; try discriminate.
  apply IH; auto. intros m Hm. apply H1. right; auto.
Qed.

Lemma no_close_closes_once : forall l, no_close l -> closes_once l.
Proof.
  intros l H. rewrite <- (app_nil_r l). apply closes_once_app; cbn; auto.
Qed.


(** An unsubscribe that is queued or delivered has been observed. *)
Definition uns_seen s bs : Prop := In Uns (sh_log s ++ bs ++ sh_q s) -> sh_uns s = true.

Lemma locked_call_uns : forall s n bs, uns_seen s bs -> uns_seen (locked_call s n) bs.
Proof.
  unfold uns_seen. intros s n bs H.
  assert (Hq : forall m, m <> Uns -> In Uns (sh_log s ++ bs ++ sh_q s ++ [m]) ->
               In Uns (sh_log s ++ bs ++ sh_q s)).
  { intros m Hm. rewrite !in_app_iff. cbn. intuition congruence. }
  destruct n; unfold locked_call, defer.
  - destruct (st_closed s) eqn:Hc; auto. rewrite (flag_open s Hc). cbn.
    intros Hin. eapply H, Hq; [|exact Hin]. discriminate.
  - destruct (st_closed s) eqn:Hc; auto. cbn. rewrite (flag_open s Hc). cbn.
    intros Hin. eapply H, Hq; [|exact Hin]. discriminate.
  - destruct (st_closed s) eqn:Hc; auto. cbn. rewrite (flag_open s Hc). cbn.
    intros Hin. eapply H, Hq; [|exact Hin]. discriminate.
  - destruct (sh_uns s) eqn:Hu; auto. cbn. destruct (sh_flag s); auto.
Qed.

Lemma locked_calls_uns : forall ns s bs, uns_seen s bs -> uns_seen (locked_calls s ns) bs.
Proof.
  induction ns as [|n ns IH]; intros s bs H; cbn; auto. apply IH, locked_call_uns; auto.
Qed.

Lemma deliver_uns : forall s n bs, uns_seen s (n :: bs) -> uns_seen (deliver s n) bs.
Proof.
  intros s n bs H. unfold deliver. apply locked_calls_uns.
  unfold uns_seen in *. cbn in *. intros Hin. apply H.
  rewrite <- app_assoc in Hin. exact Hin.
Qed.

Lemma apply_one_uns : forall s n bs, uns_seen s (n :: bs) -> uns_seen (apply_one s n) bs.
Proof.
  intros s n bs H. unfold apply_one.
  assert (H1 : uns_seen (if sh_flag s then s else deliver s n) bs).
  { destruct (sh_flag s); [|apply deliver_uns; auto].
    unfold uns_seen in *. intros Hin. apply H. rewrite !in_app_iff in *. cbn [In].
    tauto. }
  destruct (closing n); exact H1.
Qed.

Lemma fold_uns : forall bs s bs', uns_seen s (bs ++ bs') ->
  uns_seen (fold_left (@apply_one A E D) bs s) bs'.
Proof.
  induction bs as [|n bs IH]; intros s bs' H; cbn; auto. apply IH, apply_one_uns; auto.
Qed.

Definition state_of (o : outcome D) : shared D :=
  match o with Fine s => s | Panicked s => s end.

Lemma apply_queue_uns : forall left s, uns_seen s [] -> uns_seen (state_of (apply_queue left s)) [].
Proof.
  induction left as [|left IH]; intros s H; cbn [apply_queue]; auto.
  destruct (sh_q s) as [|n l] eqn:Hq; auto.
  apply IH. apply fold_uns. unfold uns_seen in *. cbn [sh_uns sh_log sh_q set_q].
  intros Hin. apply H. rewrite Hq. cbn [app]. rewrite !app_nil_r in Hin. exact Hin.
Qed.

(** Through the queue, the first closing call is the last one delivered. *)
Definition last_close s : Prop :=
  if sh_flag s
  then exists l1 c, sh_log s = l1 ++ [c] /\ no_close l1 /\ closing c = true
  else no_close (sh_log s).

Lemma apply_one_last : forall s n, last_close s -> last_close (apply_one s n).
Proof.
  unfold last_close, apply_one. intros s n H.
  destruct (sh_flag s) eqn:Hf.
  - destruct (closing n); cbn; rewrite ?Hf; auto.
  - destruct (closing n) eqn:Hn; cbn; rewrite ?deliver_flag, ?Hf, deliver_log.
    + exists (sh_log s), n. auto.
    + apply no_close_app. split; auto. intros ? [<-|[]]; auto.
Qed.

Lemma fold_last : forall bs s, last_close s -> last_close (fold_left (@apply_one A E D) bs s).
Proof.
  induction bs as [|n bs IH]; intros s H; cbn; auto. apply IH, apply_one_last; auto.
Qed.

Lemma apply_queue_last : forall left s, last_close s -> last_close (state_of (apply_queue left s)).
Proof.
  induction left as [|left IH]; intros s H; cbn [apply_queue]; auto.
  destruct (sh_q s) as [|n l] eqn:Hq; auto.
  apply IH, fold_last. exact H.
Qed.

(** Between calls from outside. *)
Definition settled s : Prop :=
  sh_q s = [] /\
  ((st_closed s = false /\ no_close (sh_log s)) \/
   (st_closed s = true /\ sh_uns s = false /\
      exists l1 c, sh_log s = l1 ++ [c] /\ no_close l1 /\ closing c = true /\ c <> Uns) \/
   (sh_uns s = true /\ closes_once (sh_log s))).

Lemma last_closes_once : forall l1 c, no_close l1 -> closing c = true -> closes_once (l1 ++ [c]).
Proof. intros. apply closes_once_app; auto. destruct c; cbn; auto. Qed.

Lemma settled_closes_once : forall s, settled s -> closes_once (sh_log s).
Proof.
  intros s (_ & [(_ & H)|[(_ & _ & l1 & c & -> & H1 & H2 & _)|(_ & H)]]); auto.
  - apply no_close_closes_once; auto.
  - apply last_closes_once; auto.
Qed.

(** With closing already observed, no reaction can queue more than an unsubscribe;
    with unsubscribe observed, nothing. *)
Lemma deliver_unsubbed : forall s n, sh_uns s = true -> st_closed s = true ->
  sh_q (deliver s n) = sh_q s /\ sh_uns (deliver s n) = true /\ st_closed (deliver s n) = true.
Proof.
  intros s n Hu Hc. unfold deliver. set (cs := snd _). set (s1 := set_dst _ _ _).
  destruct (@locked_calls_closed cs s1 Hc) as (H1 & j & H2 & H3 & H4 & H5 & H6 & H7 & H8).
  specialize (H5 Hu). subst j. rewrite app_nil_r in H2. split; auto.
Qed.

Lemma top_unsub : forall s, sh_q s = [] -> sh_uns s = false ->
  exists s', top_call s Uns = Fine s' /\ sh_q s' = [] /\ sh_uns s' = true /\
    sh_log s' = sh_log s ++ (if dclosed D (sh_dst s) then [] else [Uns]) /\
    sh_dst s' = (if dclosed D (sh_dst s) then sh_dst s else fst (react D (sh_dst s) Uns)).
Proof.
  intros s Hq Hu. unfold top_call. rewrite Hu. unfold try_unsub.
  rewrite apply_empty by exact Hq. cbn [andthen].
  change (sh_dst (set_flag (set_uns s))) with (sh_dst s).
  destruct (dclosed D (sh_dst s)).
  - rewrite try_apply_queue, apply_empty by exact Hq.
    eexists. split; [reflexivity|]. cbn. rewrite app_nil_r. auto.
  - destruct (@deliver_unsubbed (set_flag (set_uns s)) Uns eq_refl eq_refl) as (H1 & H2 & H3).
    rewrite try_apply_queue, apply_empty by (rewrite H1; exact Hq).
    eexists. split; [reflexivity|]. rewrite H1, H2, deliver_log, deliver_dst. cbn. auto.
Qed.

(** What a terminal call from outside delivers. *)
Lemma locked_calls_no_uns : forall ns s, st_closed s = true -> ~ In Uns ns -> locked_calls s ns = s.
Proof.
  induction ns as [|n ns IH]; intros s Hc Hn; cbn; auto.
  assert (H : locked_call s n = s).
  { destruct n; cbn; rewrite ?Hc; auto. destruct Hn; left; auto. }
  rewrite H. apply IH; auto. intros Hin; apply Hn; right; auto.
Qed.

Lemma locked_calls_has_uns : forall ns s, st_closed s = true -> sh_uns s = false ->
  sh_flag s = false -> In Uns ns ->
  locked_calls s ns = set_q (set_uns s) (sh_q s ++ [Uns]).
Proof.
  induction ns as [|n ns IH]; intros s Hc Hu Hf Hin; [destruct Hin|].
  destruct (match n with Uns => true | _ => false end) eqn:Hn.
  - destruct n; try discriminate. cbn. rewrite Hu. unfold defer. cbn. rewrite Hf. cbn.
    fold (locked_calls (set_q (set_uns s) (sh_q s ++ [Uns])) ns).
    set (s1 := set_q _ _).
    clear. assert (Hs : forall ns s, sh_uns s = true -> locked_calls s ns = s).
    { clear. induction ns as [|n ns IH]; intros s Hu; cbn; auto.
      assert (Hc : st_closed s = true) by (unfold st_closed; rewrite Hu, !orb_true_r; auto).
      assert (H : locked_call s n = s) by (destruct n; cbn; rewrite ?Hc, ?Hu; auto).
      rewrite H. apply IH; auto. }
    apply Hs. reflexivity.
  - assert (H : locked_call s n = s) by (destruct n; cbn; rewrite ?Hc; auto; discriminate).
    cbn. rewrite H. apply IH; auto. destruct Hin as [->|]; auto. discriminate.
Qed.

Lemma uns_dec : forall cs : list (ncall A E), {In Uns cs} + {~ In Uns cs}.
Proof.
  induction cs as [|n cs IH]; [right; intros []|].
  destruct n; try (destruct IH; [left; right; auto|right; intros [H|H]; [discriminate|auto]]).
  left; left; auto.
Qed.

Definition terminal (n : ncall A E) : bool :=
  match n with Err _ | Cmp => true | _ => false end.

Lemma top_terminal : forall s n d' cs, sh_q s = [] -> sh_closed s = false ->
  terminal n = true -> react D (sh_dst s) n = (d', cs) ->
  exists s', top_call s n = Fine s' /\ sh_q s' = [] /\ st_closed s' = true /\
    (In Uns cs -> sh_uns s' = true /\ sh_log s' = sh_log s ++ [n; Uns] /\
                  sh_dst s' = fst (react D d' Uns)) /\
    (~ In Uns cs -> sh_uns s' = false /\ sh_log s' = sh_log s ++ [n] /\ sh_dst s' = d').
Proof.
  intros s n d' cs Hq Hc Ht Hr. pose proof (closed_parts _ Hc) as (Hc1 & Hf & Hd).
  destruct (open_flags s Hc1) as (_ & Hm & Hu & He).
  set (s1 := match n with Err _ => set_err s | _ => set_cmp s end).
  assert (Hs1 : top_call s n = andthen (try_obs n s1) (@try_apply A E D)).
  { unfold top_call, s1. destruct n; try discriminate; rewrite Hc; auto. }
  assert (H1 : sh_q s1 = [] /\ st_closed s1 = true /\ sh_flag s1 = false /\
               sh_uns s1 = false /\ sh_dst s1 = sh_dst s /\ sh_log s1 = sh_log s).
  { unfold s1. destruct n; try discriminate; cbn; repeat split; auto;
      unfold st_closed; cbn; rewrite ?orb_true_r; auto. }
  clearbody s1. destruct H1 as (H1 & H2 & H3 & H4 & H5 & H6).
  rewrite Hs1. unfold try_obs. rewrite apply_empty by auto. cbn [andthen].
  unfold deliver. rewrite H5, Hr. cbn [fst snd]. set (s2 := set_dst s1 d' n).
  assert (Hc2 : st_closed s2 = true) by exact H2.
  destruct (uns_dec cs) as [Hin|Hin].
  - rewrite (@locked_calls_has_uns cs s2 Hc2 H4 H3 Hin).
    unfold s2; cbn [sh_q set_dst]. rewrite H1. cbn [app].
    unfold try_apply. cbn [sh_q set_q]. unfold max_depth.
    set (s3 := set_q (set_uns (set_dst s1 d' n)) [Uns]).
    remember 9 as k. cbn [apply_queue sh_q s3 set_q fold_left].
    unfold apply_one. cbn [closing]. change (sh_flag (set_q s3 [])) with (sh_flag s1).
    rewrite H3.
    set (s4 := set_q s3 []).
    destruct (@deliver_unsubbed s4 Uns eq_refl) as (H7 & H8 & H9).
    { unfold st_closed, s4. cbn. rewrite !orb_true_r. auto. }
    assert (Hk : apply_queue k (set_flag (deliver s4 Uns)) = Fine (set_flag (deliver s4 Uns))).
    { subst k. cbn [apply_queue sh_q set_flag]. rewrite H7. reflexivity. }
    rewrite Hk. eexists. split; [reflexivity|]. cbn [set_flag sh_q sh_uns sh_log sh_dst].
    rewrite H7, H8, deliver_log, deliver_dst.
    unfold s4; cbn. rewrite H6, <- app_assoc. cbn. repeat split; auto; tauto.
  - rewrite (@locked_calls_no_uns cs s2 Hc2 Hin).
    rewrite try_apply_queue, apply_empty by exact H1.
    exists s2. unfold s2; cbn. rewrite H6. repeat split; auto; tauto.
Qed.

Lemma top_closed_noop : forall s n, sh_q s = [] -> sh_closed s = true -> n <> Uns ->
  top_call s n = Fine s.
Proof.
  intros s n Hq Hc Hn. unfold top_call.
  destruct n; try congruence; rewrite Hc; cbn [andthen]; rewrite try_apply_queue; apply apply_empty; auto.
Qed.

Lemma top_unsub_noop : forall s, sh_q s = [] -> sh_uns s = true -> top_call s Uns = Fine s.
Proof.
  intros s Hq Hu. unfold top_call. rewrite Hu. cbn [andthen]. rewrite try_apply_queue.
  apply apply_empty; auto.
Qed.

(** A run of the queue that ends well leaves it empty. *)
Lemma apply_queue_fine_q : forall left s s', apply_queue left s = Fine s' -> sh_q s' = [].
Proof.
  induction left as [|left IH]; intros s s'; cbn [apply_queue]; [discriminate|].
  destruct (sh_q s) eqn:Hq; eauto. intros H; inversion H; subst; auto.
Qed.

Lemma settled_step : forall s n, settled s ->
  match top_call s n with
  | Fine s' => settled s'
  | Panicked s' => closes_once (sh_log s')
  end.
Proof.
  intros s n Hs. pose proof Hs as (Hq & Hcase).
  assert (Hnoop : forall o, o = Fine s ->
     match o with Fine s' => settled s' | Panicked s' => closes_once (sh_log s') end).
  { intros o ->. auto. }
  destruct (match n with Uns => true | _ => false end) eqn:Hn.
  { destruct n; try discriminate.
    destruct (sh_uns s) eqn:Hu; [apply Hnoop, top_unsub_noop; auto|].
    destruct (@top_unsub s Hq Hu) as (s' & -> & H1 & H2 & H3 & _).
    split; auto. right; right. split; auto. rewrite H3.
    destruct Hcase as [(_ & H)|[(_ & _ & l1 & c & -> & H4 & H5 & H6)|(H & _)]]; [| |congruence].
    - apply closes_once_app; auto. destruct (dclosed D (sh_dst s)); cbn; auto.
    - rewrite <- app_assoc. apply closes_once_app; auto.
      destruct c; try discriminate; try congruence; cbn; destruct (dclosed D (sh_dst s)); auto. }
  destruct (sh_closed s) eqn:Hc.
  { apply Hnoop, top_closed_noop; auto. destruct n; congruence. }
  pose proof (closed_parts _ Hc) as (Hc1 & Hf & Hd).
  destruct (open_flags s Hc1) as (_ & Hm & Hu & He).
  assert (Hlog : no_close (sh_log s)) by (destruct Hcase as [(_ & H)|[(H & _)|(H & _)]]; auto; congruence).
  destruct (terminal n) eqn:Ht.
  - destruct (react D (sh_dst s) n) as [d' cs] eqn:Hr.
    destruct (@top_terminal s _ _ _ Hq Hc Ht Hr) as (s' & -> & H1 & H2 & H3 & H4).
    split; auto. destruct (uns_dec cs) as [Hin|Hin].
    + right; right. destruct (H3 Hin) as (H5 & H6 & _). split; auto. rewrite H6.
      apply closes_once_app; auto. destruct n; try discriminate; cbn; auto.
    + right; left. destruct (H4 Hin) as (H5 & H6 & _). split; auto. split; auto.
      exists (sh_log s), n. rewrite H6. repeat split; auto; destruct n; try discriminate; auto.
  - destruct n; try discriminate.
    pose proof (@top_next_mid s i Hq Hc) as Hmid.
    assert (Hl : last_close (state_of (top_call s (Nxt i)))).
    { rewrite Hmid. apply apply_queue_last, fold_last. unfold last_close. rewrite Hf. auto. }
    assert (Hun : uns_seen (state_of (top_call s (Nxt i))) []).
    { rewrite Hmid. apply apply_queue_uns, fold_uns. unfold uns_seen. rewrite Hq.
      rewrite !in_app_iff. cbn. intros [H|[[[H|H]|[]]|[]]]; try discriminate; try tauto.
      apply Hlog in H; discriminate. }
    destruct (top_call s (Nxt i)) as [s'|s'] eqn:Ho; cbn in Hl, Hun.
    + assert (Hq' : sh_q s' = []).
      { symmetry in Hmid. apply apply_queue_fine_q in Hmid. auto. }
      split; auto. unfold last_close in Hl. destruct (sh_flag s') eqn:Hf'.
      * destruct Hl as (l1 & c & Hl & H1 & H2).
        destruct (sh_uns s') eqn:Hu'.
        -- right; right. split; auto. rewrite Hl. apply last_closes_once; auto.
        -- right; left. split; [unfold st_closed; rewrite Hf'; auto|]. split; auto.
           exists l1, c. repeat split; auto. intros ->.
           assert (sh_uns s' = true); [|congruence]. apply Hun. rewrite Hl, !in_app_iff. cbn. auto.
      * left.
        destruct (@top_next_fine s i _ Hq Hc Ho) as (l & Hcas & (_ & _ & _ & _ & H)).
        split; auto.
    + unfold last_close in Hl. destruct (sh_flag s').
      * destruct Hl as (l1 & c & -> & H1 & H2). apply last_closes_once; auto.
      * apply no_close_closes_once; auto.
Qed.

Lemma settled_new : forall d, settled (sh_new D d).
Proof. intros d. split; auto. left. split; auto. intros ? []. Qed.

Lemma settled_run : forall ns s, settled s ->
  match top_calls s ns with
  | Fine s' => settled s'
  | Panicked s' => closes_once (sh_log s')
  end.
Proof.
  induction ns as [|n ns IH]; intros s H; cbn [top_calls]; auto.
  pose proof (settled_step n H) as Hn. destruct (top_call s n); cbn [andthen]; auto.
  apply IH; auto.
Qed.

Lemma reach_settled : forall d ns s, top_calls (sh_new D d) ns = Fine s -> settled s.
Proof. intros d ns s H. pose proof (settled_run ns (settled_new d)) as Hr. rewrite H in Hr. auto. Qed.

(** ** The statements used by the property file *)

Lemma reach_next : forall d0 ns s a d' l, top_calls (sh_new D d0) ns = Fine s ->
  sh_closed s = false -> cascade D 9 (sh_dst s) [(0, Nxt a)] d' l ->
  exists s', top_calls (sh_new D d0) (ns ++ [Nxt a]) = Fine s' /\
    sh_log s' = sh_log s ++ l /\ sh_dst s' = d' /\
    sh_closed s' = existsb closing l || dclosed D d'.
Proof.
  intros d0 ns s a d' l Hr Hc Hcas. pose proof (reach_settled d0 ns Hr) as (Hq & _).
  destruct (@top_next_cascade s _ _ _ Hq Hc Hcas) as (s' & H1 & H2 & H3 & H4 & H5 & H6).
  exists s'. split.
  { assert (Happ : forall ns1 ns2 x, top_calls x (ns1 ++ ns2) =
                andthen (top_calls x ns1) (fun y => top_calls (D := D) y ns2)).
    { induction ns1 as [|m ns1 IH]; intros; cbn [top_calls app andthen]; auto.
      destruct (top_call x m); cbn [andthen]; auto. }
    rewrite Happ, Hr. cbn [andthen top_calls]. rewrite H1. reflexivity. }
  split; auto. split; auto. unfold sh_closed. rewrite H3, <- H5.
  destruct (sh_flag s') eqn:Hf; [unfold st_closed; rewrite Hf; auto|].
  rewrite (H6 eq_refl). reflexivity.
Qed.

Lemma reach_next_conv : forall d0 ns s a s', top_calls (sh_new D d0) ns = Fine s ->
  sh_closed s = false -> top_call s (Nxt a) = Fine s' ->
  exists l, cascade D 10 (sh_dst s) [(0, Nxt a)] (sh_dst s') l /\ sh_log s' = sh_log s ++ l.
Proof.
  intros d0 ns s a s' Hr Hc Hs. pose proof (reach_settled d0 ns Hr) as (Hq & _).
  destruct (@top_next_fine s a _ Hq Hc Hs) as (l & H1 & H2 & _). eauto.
Qed.

Lemma reach_closes_once : forall d0 ns,
  closes_once (sh_log (state_of (top_calls (sh_new D d0) ns))).
Proof.
  intros d0 ns. pose proof (settled_run ns (settled_new d0)) as Hr.
  destruct (top_calls (sh_new D d0) ns); cbn; auto. apply settled_closes_once; auto.
Qed.

Lemma reach_closed_silent : forall d0 ns s n, top_calls (sh_new D d0) ns = Fine s ->
  sh_closed s = true -> n <> Uns -> top_call s n = Fine s.
Proof.
  intros d0 ns s n Hr Hc Hn. pose proof (reach_settled d0 ns Hr) as (Hq & _).
  apply top_closed_noop; auto.
Qed.

Lemma reach_terminal : forall d0 ns s n, top_calls (sh_new D d0) ns = Fine s ->
  sh_closed s = false -> terminal n = true ->
  exists s', top_call s n = Fine s' /\
    ((sh_log s' = sh_log s ++ [n] /\ sh_dst s' = fst (react D (sh_dst s) n)) \/
     (In Uns (snd (react D (sh_dst s) n)) /\ sh_log s' = sh_log s ++ [n; Uns])) /\
    sh_closed s' = true.
Proof.
  intros d0 ns s n Hr Hc Hn. pose proof (reach_settled d0 ns Hr) as (Hq & _).
  destruct (react D (sh_dst s) n) as [d' cs] eqn:Hre.
  destruct (@top_terminal s _ _ _ Hq Hc Hn Hre) as (s' & H1 & H2 & H3 & H4 & H5).
  exists s'. split; auto. split; [|unfold sh_closed; rewrite H3; auto].
  destruct (uns_dec cs) as [Hin|Hin].
  - right. split; auto. apply H4; auto.
  - left. destruct (H5 Hin) as (_ & H6 & H7). auto.
Qed.

Lemma reach_unsub : forall d0 ns s, top_calls (sh_new D d0) ns = Fine s ->
  sh_closed s = false ->
  exists s', top_call s Uns = Fine s' /\ sh_log s' = sh_log s ++ [Uns] /\
    sh_dst s' = fst (react D (sh_dst s) Uns) /\ sh_closed s' = true.
Proof.
  intros d0 ns s Hr Hc. pose proof (reach_settled d0 ns Hr) as (Hq & _).
  pose proof (closed_parts _ Hc) as (Hc1 & Hf & Hd).
  destruct (open_flags s Hc1) as (_ & _ & Hu & _).
  destruct (@top_unsub s Hq Hu) as (s' & H1 & H2 & H3 & H4 & H5). rewrite Hd in *.
  exists s'. repeat split; auto. unfold sh_closed, st_closed. rewrite H3, !orb_true_r. auto.
Qed.

End OneThread.

(** ** Threads *)
Arguments upd : simpl never.
Section Threads.
Context {W : Type}.
Notation V := (nat * W)%type.
Implicit Types s : @sys V.

(** Values a thread carries towards the destination: the drained batch and its own. *)
Definition holds (p : @pc V) : bool :=
  match p with
  | ChkHold _ | Apply _ _ _ | Direct _ | Unlock | UnlockA | Dead _ => true
  | _ => false
  end.

Definition batch_of (p : @pc V) : list V :=
  match p with Apply _ b _ => b | _ => [] end.

Definition own_of (p : @pc V) : list V :=
  match p with
  | Chk v | ChkHold v | Try v | Direct v | Defer v => [v]
  | Apply _ _ (Some v) | Dead (Some v) => [v]
  | _ => []
  end.

Definition owner_batch s : list V :=
  match owner s with Some t => batch_of (pcs s t) | None => [] end.

Record tinv (prog : nat -> list V) s : Prop := {
  ti_owner : forall t, holds (pcs s t) = true <-> owner s = Some t;
  ti_tag : forall t v, In v (own_of (pcs s t) ++ todo s t) -> fst v = t;
  ti_order : forall t,
     of_thread t (out s ++ owner_batch s ++ queue s) ++ own_of (pcs s t) ++ todo s t = prog t;
  ti_direct : forall t v, pcs s t = Direct v -> of_thread t (queue s) = []
}.

Lemma upd_same : forall X (f : nat -> X) t x, upd f t x t = x.
Proof. intros. unfold upd. rewrite Nat.eqb_refl. reflexivity. Qed.
Lemma upd_other : forall X (f : nat -> X) t u x, u <> t -> upd f t x u = f u.
Proof. intros. unfold upd. apply Nat.eqb_neq in H. rewrite H. reflexivity. Qed.

Lemma of_thread_app : forall t (l1 l2 : list V),
  of_thread t (l1 ++ l2) = of_thread t l1 ++ of_thread t l2.
Proof. intros. apply filter_app. Qed.

Lemma of_thread_own : forall t (v : V), fst v = t -> of_thread t [v] = [v].
Proof. intros t v <-. unfold of_thread. cbn. rewrite Nat.eqb_refl. reflexivity. Qed.

Lemma of_thread_other : forall t (v : V), fst v <> t -> of_thread t [v] = [].
Proof. intros t v H. unfold of_thread. cbn. apply Nat.eqb_neq in H. rewrite H. reflexivity. Qed.

Lemma owner_batch_none : forall s, owner s = None -> owner_batch s = [].
Proof. intros s H. unfold owner_batch. rewrite H. reflexivity. Qed.

Lemma owner_batch_some : forall s t, owner s = Some t -> owner_batch s = batch_of (pcs s t).
Proof. intros s t H. unfold owner_batch. rewrite H. reflexivity. Qed.

(** A step that changes only [t]'s program counter and the ownership. *)
Lemma tinv_move : forall prog s t p o td,
  tinv prog s ->
  (o = owner s /\ holds p = holds (pcs s t)) \/
  (o = Some t /\ owner s = None /\ holds p = true) \/
  (o = None /\ owner s = Some t /\ holds p = false) ->
  batch_of p = [] -> batch_of (pcs s t) = [] ->
  own_of p ++ td = own_of (pcs s t) ++ todo s t ->
  (forall v, p = Direct v -> of_thread t (queue s) = []) ->
  tinv prog {| pcs := upd (pcs s) t p; todo := upd (todo s) t td; owner := o;
               queue := queue s; out := out s |}.
Proof.
  intros prog s t p o td [Ho Ht Hp Hd] Hown Hb Hb0 Hv Hdir.
  assert (Hob : owner_batch {| pcs := upd (pcs s) t p; todo := upd (todo s) t td; owner := o;
               queue := queue s; out := out s |} = owner_batch s).
  { unfold owner_batch. cbn. destruct Hown as [(-> & _)|[(-> & -> & _)|(-> & -> & _)]].
    - destruct (owner s) as [u|]; auto. destruct (Nat.eq_dec u t) as [->|Hu].
      + rewrite upd_same. congruence.
      + rewrite upd_other; auto.
    - rewrite upd_same. auto.
    - auto. }
  constructor; cbn [pcs todo owner queue out].
  - intros u. destruct (Nat.eq_dec u t) as [->|Hu]; rewrite ?upd_same, ?upd_other by auto.
    + specialize (Ho t). destruct Hown as [(-> & ->)|[(-> & H1 & ->)|(-> & H1 & ->)]].
      * exact Ho.
      * tauto.
      * split; intros; discriminate.
    + specialize (Ho u). destruct Hown as [(-> & _)|[(-> & H1 & _)|(-> & H1 & _)]]; auto.
      * rewrite Ho, H1. split; [discriminate|]. intros H; inversion H; congruence.
      * rewrite Ho, H1. split; [|discriminate]. intros H; inversion H; congruence.
  - intros u v. destruct (Nat.eq_dec u t) as [->|Hu]; rewrite ?upd_same, ?upd_other by auto.
    + rewrite Hv. apply Ht.
    + apply Ht.
  - intros u. rewrite Hob.
    destruct (Nat.eq_dec u t) as [->|Hu]; rewrite ?upd_same, ?upd_other by auto.
    + rewrite Hv. apply Hp.
    + apply Hp.
  - intros u v. destruct (Nat.eq_dec u t) as [->|Hu]; rewrite ?upd_same, ?upd_other by auto.
    + apply Hdir.
    + apply Hd.
Qed.

Lemma upd_eta : forall prog s t p o q ou, 
  tinv prog {| pcs := upd (pcs s) t p; todo := upd (todo s) t (todo s t); owner := o;
               queue := q; out := ou |} ->
  tinv prog {| pcs := upd (pcs s) t p; todo := todo s; owner := o; queue := q; out := ou |}.
Proof.
  intros prog s t p o q ou [Ho Ht Hp Hd].
  assert (Hu : forall u, upd (todo s) t (todo s t) u = todo s u).
  { intros u. destruct (Nat.eq_dec u t) as [->|Hu]; rewrite ?upd_same, ?upd_other; auto. }
  constructor; cbn [pcs todo owner queue out] in *; auto.
  - intros u v. rewrite <- Hu. apply Ht.
  - intros u. rewrite <- Hu. apply Hp.
Qed.

Lemma tinv_step : forall prog s t s', tinv prog s -> tstep s t = Some s' -> tinv prog s'.
Proof.
  intros prog s t s' HI Hs. pose proof HI as [Ho Ht Hp Hd].
  unfold tstep, goto in Hs. destruct (pcs s t) as [|v|v|v|k b d|v| |v| | | |lost] eqn:Hpc.
  - (* Idle *)
    destruct (todo s t) as [|v r] eqn:Htd; [discriminate|]. inversion Hs; subst; clear Hs.
    apply tinv_move; auto; rewrite ?Hpc, ?Htd; auto; discriminate.
  - destruct (owner s) eqn:How; inversion Hs; subst; clear Hs; apply upd_eta;
      apply tinv_move; auto; rewrite ?Hpc; auto; discriminate.
  - inversion Hs; subst; clear Hs; apply upd_eta.
    apply tinv_move; auto; rewrite ?Hpc; auto; try discriminate.
    right; right. repeat split; auto. apply Ho. rewrite Hpc. reflexivity.
  - destruct (owner s) eqn:How; inversion Hs; subst; clear Hs; apply upd_eta;
      apply tinv_move; auto; rewrite ?Hpc; auto; discriminate.
  - (* Apply *)
    assert (How : owner s = Some t) by (apply Ho; rewrite Hpc; reflexivity).
    assert (Hob : owner_batch s = b) by (rewrite (owner_batch_some s How), Hpc; reflexivity).
    destruct b as [|x b].
    + destruct (Nat.eqb k max_depth) eqn:Hk.
      { inversion Hs; subst; clear Hs. apply upd_eta.
        apply tinv_move; auto; rewrite ?Hpc; auto; discriminate. }
      destruct (queue s) as [|q0 q] eqn:Hq.
      * inversion Hs; subst; clear Hs; apply upd_eta.
        rewrite <- Hq. apply tinv_move; auto; rewrite ?Hpc, ?Hq; auto; destruct d; auto.
      * inversion Hs; subst; clear Hs.
        constructor; cbn [pcs todo owner queue out].
        -- intros u. rewrite <- Ho.
           destruct (Nat.eq_dec u t) as [->|Hu]; rewrite ?upd_same, ?upd_other, ?Hpc by auto; tauto.
        -- intros u v. specialize (Ht u v). destruct (Nat.eq_dec u t) as [->|Hu];
             rewrite ?upd_same, ?upd_other by auto; rewrite ?Hpc in Ht; auto.
        -- intros u. specialize (Hp u). rewrite Hob in Hp. cbn [app] in Hp.
           unfold owner_batch; cbn [pcs owner]. rewrite How, upd_same. cbn [batch_of].
           rewrite app_nil_r.
           destruct (Nat.eq_dec u t) as [->|Hu];
             rewrite ?upd_same, ?upd_other by auto; rewrite ?Hpc in Hp; auto.
        -- auto.
    + inversion Hs; subst; clear Hs.
      constructor; cbn [pcs todo owner queue out].
      * intros u. rewrite <- Ho.
        destruct (Nat.eq_dec u t) as [->|Hu]; rewrite ?upd_same, ?upd_other, ?Hpc by auto; tauto.
      * intros u v. specialize (Ht u v). destruct (Nat.eq_dec u t) as [->|Hu];
          rewrite ?upd_same, ?upd_other by auto; rewrite ?Hpc in Ht; auto.
      * intros u. specialize (Hp u). rewrite Hob in Hp.
        unfold owner_batch; cbn [pcs owner]. rewrite How, upd_same. cbn [batch_of].
        rewrite <- app_assoc. cbn [app] in *.
        destruct (Nat.eq_dec u t) as [->|Hu];
          rewrite ?upd_same, ?upd_other by auto; rewrite ?Hpc in Hp; auto.
      * intros u v. specialize (Hd u v). destruct (Nat.eq_dec u t) as [->|Hu];
          rewrite ?upd_same, ?upd_other by auto; auto. discriminate.
  - (* Direct *)
    assert (How : owner s = Some t) by (apply Ho; rewrite Hpc; reflexivity).
    assert (Hob : owner_batch s = []) by (rewrite (owner_batch_some s How), Hpc; reflexivity).
    inversion Hs; subst; clear Hs.
    assert (Hv : fst v = t) by (apply (Ht t v); rewrite Hpc; left; auto).
    constructor; cbn [pcs todo owner queue out].
    + intros u. rewrite <- Ho.
      destruct (Nat.eq_dec u t) as [->|Hu]; rewrite ?upd_same, ?upd_other, ?Hpc by auto; tauto.
    + intros u w. specialize (Ht u w). destruct (Nat.eq_dec u t) as [->|Hu];
        rewrite ?upd_same, ?upd_other by auto; auto. intros H. apply Ht. rewrite Hpc. right; auto.
    + intros u. specialize (Hp u). rewrite Hob in Hp.
      unfold owner_batch; cbn [pcs owner]. rewrite How, upd_same. cbn [batch_of app] in *.
      rewrite !of_thread_app in *.
      destruct (Nat.eq_dec u t) as [->|Hu]; rewrite ?upd_same, ?upd_other by auto.
      * rewrite (Hd t v Hpc) in *. rewrite Hpc in Hp. cbn [own_of app] in *.
        rewrite of_thread_own by auto. rewrite app_nil_r in *.
        rewrite <- app_assoc. exact Hp.
      * rewrite (of_thread_other (t := u) v) by congruence. rewrite app_nil_r. exact Hp.
    + intros u w. specialize (Hd u w). destruct (Nat.eq_dec u t) as [->|Hu];
          rewrite ?upd_same, ?upd_other by auto; auto. discriminate.
  - (* Unlock *)
    inversion Hs; subst; clear Hs; apply upd_eta.
    apply tinv_move; auto; rewrite ?Hpc; auto; try discriminate.
    right; right. repeat split; auto. apply Ho. rewrite Hpc. reflexivity.
  - (* Defer *)
    inversion Hs; subst; clear Hs.
    assert (Hv : fst v = t) by (apply (Ht t v); rewrite Hpc; left; auto).
    assert (Hnow : owner s <> Some t) by (intros H; apply Ho in H; rewrite Hpc in H; discriminate).
    constructor; cbn [pcs todo owner queue out].
    + intros u. rewrite <- Ho.
      destruct (Nat.eq_dec u t) as [->|Hu]; rewrite ?upd_same, ?upd_other, ?Hpc by auto; tauto.
    + intros u w. specialize (Ht u w). destruct (Nat.eq_dec u t) as [->|Hu];
        rewrite ?upd_same, ?upd_other by auto; auto. intros H. apply Ht. rewrite Hpc. right; auto.
    + intros u. specialize (Hp u).
      assert (Hob : owner_batch {| pcs := upd (pcs s) t Dirty; todo := todo s; owner := owner s;
                     queue := queue s ++ [v]; out := out s |} = owner_batch s).
      { unfold owner_batch; cbn. destruct (owner s) as [w|]; auto.
        rewrite upd_other; auto; congruence. }
      rewrite Hob. rewrite !of_thread_app in *. rewrite <- !app_assoc in *.
      destruct (Nat.eq_dec u t) as [->|Hu]; rewrite ?upd_same, ?upd_other by auto.
      * rewrite Hpc in Hp. cbn [own_of app] in *. rewrite of_thread_own by auto. exact Hp.
      * rewrite (of_thread_other (t := u) v) by congruence. exact Hp.
    + intros u w. destruct (Nat.eq_dec u t) as [->|Hu];
          rewrite ?upd_same, ?upd_other by auto; [discriminate|].
      intros H. rewrite of_thread_app, (Hd u w H).
      rewrite (of_thread_other (t := u) v) by congruence. reflexivity.
  - destruct (queue s) eqn:Hq; inversion Hs; subst; clear Hs; apply upd_eta; rewrite <- Hq;
      apply tinv_move; auto; rewrite ?Hpc; auto; discriminate.
  - destruct (owner s) eqn:How; inversion Hs; subst; clear Hs; apply upd_eta;
      apply tinv_move; auto; rewrite ?Hpc; auto; discriminate.
  - inversion Hs; subst; clear Hs; apply upd_eta.
    apply tinv_move; auto; rewrite ?Hpc; auto; try discriminate.
    right; right. repeat split; auto. apply Ho. rewrite Hpc. reflexivity.
  - discriminate.
Qed.

Lemma tinv_sched : forall prog ts s, tinv prog s -> tinv prog (schedule s ts).
Proof.
  intros prog ts. induction ts as [|t ts IH]; intros s H; cbn; auto.
  destruct (tstep s t) eqn:Hs; auto. apply IH. eapply tinv_step; eauto.
Qed.

Lemma tinv_init : forall prog : nat -> list V,
  (forall t v, In v (prog t) -> fst v = t) -> tinv prog (sys0 prog).
Proof.
  intros prog H. constructor; cbn; auto.
  intros t. split; discriminate.
Qed.

Definition at_rest s : Prop := forall t, pcs s t = Idle /\ todo s t = [].

Lemma rest_accounted : forall (prog : nat -> list V) ts,
  (forall t v, In v (prog t) -> fst v = t) ->
  at_rest (schedule (sys0 prog) ts) ->
  forall t, of_thread t (out (schedule (sys0 prog) ts) ++ queue (schedule (sys0 prog) ts)) = prog t.
Proof.
  intros prog ts Htag Hrest t. pose proof (tinv_sched ts (tinv_init _ Htag)) as [Ho Ht Hp Hd].
  set (s := schedule _ ts) in *. specialize (Hp t). destruct (Hrest t) as [H1 H2].
  rewrite H1, H2 in Hp. cbn in Hp. rewrite app_nil_r in Hp.
  assert (Hob : owner_batch s = []).
  { unfold owner_batch. destruct (owner s) as [u|]; auto. destruct (Hrest u) as [-> _]. auto. }
  rewrite Hob in Hp. exact Hp.
Qed.

(** Delivered values of each thread are a prefix of what it pushed, at any time. *)
Lemma always_prefix : forall (prog : nat -> list V) ts,
  (forall t v, In v (prog t) -> fst v = t) ->
  forall t, exists r, of_thread t (out (schedule (sys0 prog) ts)) ++ r = prog t.
Proof.
  intros prog ts Htag t. pose proof (tinv_sched ts (tinv_init _ Htag)) as [Ho Ht Hp Hd].
  rewrite <- (Hp t), of_thread_app, <- app_assoc. eauto.
Qed.

(** A thread running alone. *)
Lemma schedule_app : forall ts1 ts2 s, schedule s (ts1 ++ ts2) = schedule (schedule s ts1) ts2.
Proof.
  induction ts1 as [|t ts1 IH]; intros; cbn; auto. destruct (tstep s t); apply IH.
Qed.

Lemma batch_alone : forall b s t k d, pcs s t = Apply k b d ->
  let s' := schedule s (repeat t (length b)) in
  pcs s' t = Apply k [] d /\ todo s' = todo s /\ owner s' = owner s /\ queue s' = queue s /\
  out s' = out s ++ b /\ (forall u, u <> t -> pcs s' u = pcs s u).
Proof.
  induction b as [|x b IH]; intros s t k d Hpc; cbn.
  - rewrite app_nil_r. auto 10.
  - unfold tstep. rewrite Hpc.
    destruct (IH {| pcs := upd (pcs s) t (Apply k b d); todo := todo s; owner := owner s;
                    queue := queue s; out := out s ++ [x] |} t k d) as (H1&H2&H3&H4&H5&H6).
    { cbn. apply upd_same. }
    cbn in *. repeat split; auto.
    + rewrite H5, <- app_assoc. reflexivity.
    + intros u Hu. rewrite H6 by auto. apply upd_other; auto.
Qed.

Lemma sched_S : forall s t s1 n, tstep s t = Some s1 ->
  schedule s (repeat t (S n)) = schedule s1 (repeat t n).
Proof. intros s t s1 n H. cbn [repeat schedule]. rewrite H. reflexivity. Qed.

Lemma next_alone : forall s t v r, owner s = None -> pcs s t = Idle -> todo s t = v :: r ->
  exists n, let s' := schedule s (repeat t n) in
    pcs s' t = Idle /\ todo s' t = r /\ owner s' = None /\ queue s' = [] /\
    out s' = out s ++ queue s ++ [v] /\
    (forall u, u <> t -> pcs s' u = pcs s u /\ todo s' u = todo s u).
Proof.
  intros s t v r Ho Hp Ht.
  (* up to the start of apply_notification_queue *)
  remember (schedule s (repeat t 4)) as s1 eqn:Hs1.
  assert (H1 : pcs s1 t = Apply 0 [] (Some v) /\ todo s1 t = r /\ owner s1 = Some t /\
     queue s1 = queue s /\ out s1 = out s /\
     forall u, u <> t -> pcs s1 u = pcs s u /\ todo s1 u = todo s u).
  { subst s1.
    erewrite sched_S by (unfold tstep; rewrite Hp, Ht; reflexivity).
    erewrite sched_S by (unfold tstep; cbn [pcs owner]; rewrite upd_same, Ho; reflexivity).
    erewrite sched_S by (unfold tstep; cbn [pcs owner]; rewrite upd_same; reflexivity).
    erewrite sched_S by (unfold tstep; cbn [pcs owner]; rewrite upd_same; reflexivity).
    cbn. rewrite !upd_same. repeat split; auto; rewrite !upd_other; auto. }
  destruct H1 as (P1 & T1 & O1 & Q1 & U1 & X1).
  assert (Htail : forall s2, (exists k, k <> max_depth /\ pcs s2 t = Apply k [] (Some v)) ->
     queue s2 = [] -> owner s2 = Some t ->
     let s' := schedule s2 (repeat t 4) in
     pcs s' t = Idle /\ todo s' = todo s2 /\ owner s' = None /\ queue s' = [] /\
     out s' = out s2 ++ [v] /\ (forall u, u <> t -> pcs s' u = pcs s2 u)).
  { intros s2 (k & Hk & P2) Q2 O2. apply Nat.eqb_neq in Hk.
    erewrite sched_S by (unfold tstep; rewrite P2, Hk, Q2; reflexivity).
    erewrite sched_S by (unfold tstep, goto; cbn [pcs owner]; rewrite upd_same; reflexivity).
    erewrite sched_S by (unfold tstep, goto; cbn [pcs owner]; rewrite upd_same; reflexivity).
    erewrite sched_S by (unfold tstep, goto; cbn [pcs owner queue]; rewrite upd_same, Q2; reflexivity).
    cbn. rewrite !upd_same. repeat split; auto. intros u Hu. rewrite !upd_other; auto. }
  destruct (queue s1) as [|q0 q] eqn:Hq1.
  - exists (4 + 4). rewrite repeat_app, schedule_app, <- Hs1.
    destruct (Htail s1) as (H1 & H2 & H3 & H4 & H5 & H6); auto.
    { exists 0. split; auto. discriminate. }
    cbv zeta. rewrite H1, H2, H3, H4, H5, U1, <- Q1. repeat split; auto.
    + rewrite H6 by auto. apply X1; auto.
    + apply X1; auto.
  - set (s2 := schedule s1 [t]).
    assert (H2 : pcs s2 t = Apply 1 (q0 :: q) (Some v) /\ todo s2 = todo s1 /\
        owner s2 = Some t /\ queue s2 = [] /\ out s2 = out s1 /\
        forall u, u <> t -> pcs s2 u = pcs s1 u).
    { unfold s2. cbn [schedule]. unfold tstep. rewrite P1, Hq1. cbn.
      rewrite upd_same. repeat split; auto. intros u Hu. apply upd_other; auto. }
    destruct H2 as (P2 & T2 & O2 & Q2 & U2 & X2).
    destruct (@batch_alone _ s2 t _ _ P2) as (P3 & T3 & O3 & Q3 & U3 & X3).
    set (s3 := schedule s2 (repeat t (length (q0 :: q)))) in *.
    destruct (Htail s3) as (H1 & H2 & H3 & H4 & H5 & H6).
    { exists 1. split; auto. discriminate. }
    { congruence. }
    { congruence. }
    exists (4 + (1 + (length (q0 :: q) + 4))).
    rewrite repeat_app, schedule_app, <- Hs1, repeat_app, schedule_app.
    change (schedule s1 (repeat t 1)) with s2.
    rewrite repeat_app, schedule_app. fold s3. cbv zeta.
    rewrite H1, H2, H3, H4, H5, U3, U2, U1, T3, T2, <- Q1. repeat split; auto.
    + rewrite <- app_assoc. reflexivity.
    + rewrite H6, X3, X2 by auto. apply X1; auto.
    + apply X1; auto.
Qed.

Lemma rest_flush : forall (prog : nat -> list V) ts t v,
  at_rest (schedule (sys0 prog) ts) ->
  (forall t v, In v (prog t) -> fst v = t) ->
  let s := schedule (sys0 prog) ts in
  let s1 := {| pcs := pcs s; todo := upd (todo s) t [v]; owner := owner s;
               queue := queue s; out := out s |} in
  exists n, let s' := schedule s1 (repeat t n) in
    at_rest s' /\ queue s' = [] /\ out s' = out s ++ queue s ++ [v].
Proof.
  intros prog ts t v Hrest Htag s s1.
  pose proof (tinv_sched ts (tinv_init _ Htag)) as [Ho Ht Hp Hd].
  fold s in Ho. destruct (@next_alone s1 t v []) as (n & H1 & H2 & H3 & H4 & H5 & H6).
  - cbn. assert (Hno : forall u, owner s <> Some u).
    { intros u Hu. apply Ho in Hu. unfold s in Hu.
      destruct (Hrest u) as [Hx _]. rewrite Hx in Hu. discriminate. }
    destruct (owner s) as [u|]; auto. destruct (Hno u); auto.
  - apply Hrest.
  - cbn. apply upd_same.
  - exists n. cbv zeta. split; [|split; auto].
    intros u. destruct (Nat.eq_dec u t) as [->|Hu]; auto.
    destruct (H6 u Hu) as [H7 H8]. rewrite H7, H8. cbn. rewrite upd_other by auto. apply Hrest.
Qed.

End Threads.
