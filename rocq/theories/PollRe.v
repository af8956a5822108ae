(** Destinations that unsubscribe in answer to a value. *)
From Verif Require Import Base SubscrModel SharedModel SharedSpec SharedProofs PollReModel PollReSpec.
Set Implicit Arguments.

Section Re.
Context {A E : Type} (D : dest A E).
Variable d0 : dst D.
Notation S := (shared D).

Notation after := (@after A E D d0).
Notation leaves := (@leaves A E D).
Notation heeded := (@heeded A E D d0).
Hypothesis Hleaves : leaves.

Definition asked (l : list (ncall A E)) : Prop := exists l1 a l2, l = l1 ++ Nxt a :: l2 /\ In Uns (snd (react D (after l1) (Nxt a))).
Record inv (s : S) : Prop := mkInv {
  i_q : sh_q s = [];
  i_dst : sh_dst s = after (sh_log s);
  i_heed : heeded (sh_log s);
  i_asked : asked (sh_log s) -> st_closed s = true;
  i_flag : sh_flag s = true -> sh_uns s = true
}.

Lemma after_snoc l n : after (l ++ [n]) = fst (react D (after l) n).
Proof. unfold after. rewrite fold_left_app. reflexivity. Qed.
Lemma asked_snoc l n : asked (l ++ [n]) -> asked l \/ exists a, n = Nxt a /\ In Uns (snd (react D (after l) (Nxt a))).
Proof.
  intros (l1 & a & l2 & H & I). destruct l2 as [|x l2] using rev_ind.
  - apply app_inj_tail in H. destruct H as [-> ->]. eauto.
  - rewrite app_comm_cons, app_assoc in H. apply app_inj_tail in H. destruct H as [-> _]. left. exists l1, a, l2. auto.
Qed.
Lemma heeded_snoc l n : heeded l -> (forall b, n = Nxt b -> ~ asked l) -> heeded (l ++ [n]).
Proof.
  intros H1 H2 l1 a l2 H I b. destruct l2 as [|x l2] using rev_ind; [simpl; auto|].
  rewrite app_comm_cons, app_assoc in H. apply app_inj_tail in H. destruct H as [-> ->].
  rewrite in_app_iff. intros [Hi|[Hi|[]]]; [exact (H1 l1 a l2 eq_refl I b Hi)|].
  apply (H2 b Hi). exists l1, a, l2. auto.
Qed.
Lemma inv_ext s s' : inv s -> sh_q s' = [] -> sh_dst s' = sh_dst s -> sh_log s' = sh_log s -> (st_closed s = true -> st_closed s' = true) -> (sh_flag s' = true -> sh_uns s' = true) -> inv s'.
Proof. intros [I1 I2 I3 I4 I5] Hq Hd Hl Hc Hf. split; rewrite ?Hd, ?Hl; auto. Qed.

Lemma apply_round k (s : S) : sh_q (fold_left (@apply_one A E D) (sh_q s) (set_q s [])) = [] ->
  apply_queue (Datatypes.S (Datatypes.S k)) s = Fine (fold_left (@apply_one A E D) (sh_q s) (set_q s [])) \/ sh_q s = [].
Proof.
  intros H. destruct (sh_q s) as [|x q] eqn:Hq; [auto|]. left.
  cbn [apply_queue]. rewrite Hq, H. reflexivity.
Qed.
Lemma try_apply_round (s : S) : sh_q (fold_left (@apply_one A E D) (sh_q s) (set_q s [])) = [] -> sh_q s <> [] ->
  try_apply s = Fine (fold_left (@apply_one A E D) (sh_q s) (set_q s [])).
Proof.
  intros H1 H2. unfold try_apply. destruct (apply_round 8 s H1) as [H|H]; [|contradiction].
  destruct (sh_q s) eqn:Hq; [contradiction|]. exact H.
Qed.

(** One call delivered while the queue is empty, and what it leads to. *)
Lemma deliver_apply s n : inv s -> (forall b, n = Nxt b -> st_closed s = false \/ ~ asked (sh_log s)) ->
  exists s', try_apply (deliver s n) = Fine s' /\ inv s' /\ (st_closed s = true -> st_closed s' = true).
Proof.
  intros [I1 I2 I3 I4 Hf] Hn. unfold deliver.
  assert (Hh : heeded (sh_log s ++ [n])).
  { apply heeded_snoc; auto. intros b -> Ha. destruct (Hn b eq_refl); [rewrite (I4 Ha) in *; discriminate|auto]. }
  destruct (Hleaves (sh_dst s) n) as [Hr|Hr]; rewrite Hr.
  - exists (set_dst s (fst (react D (sh_dst s) n)) n). cbn [locked_calls fold_left]. unfold try_apply. cbn [set_dst sh_q]. rewrite I1. split; auto. split; [|auto].
    split; cbn [set_dst sh_q sh_dst sh_log]; auto.
    + rewrite after_snoc, <- I2. auto.
    + intros Ha. apply asked_snoc in Ha. destruct Ha as [Ha|(a & -> & Ha)]; [auto|].
      rewrite <- I2, Hr in Ha. destruct Ha.
  - cbn [locked_calls fold_left locked_call set_dst sh_uns]. destruct (sh_uns s) eqn:Hu.
    + exists (set_dst s (fst (react D (sh_dst s) n)) n). unfold try_apply. cbn [set_dst sh_q]. rewrite I1. split; auto. split; [|auto].
      assert (Hc : st_closed s = true) by (unfold st_closed; rewrite Hu, !orb_true_r; auto).
      split; cbn [set_dst sh_q sh_dst sh_log]; auto. rewrite after_snoc, <- I2. auto.
    + assert (Hfl : sh_flag s = false) by (destruct (sh_flag s); auto; specialize (Hf eq_refl); congruence).
      destruct s as [d q f u c e l]. cbn [sh_dst sh_q sh_flag sh_uns sh_log] in *. subst q f u.
      unfold defer, set_uns, set_dst, set_q. cbn [sh_dst sh_q sh_flag sh_uns sh_log sh_cmp sh_err andb app negb].
      set (d1 := fst (react D d n)).
      assert (Hd1 : d1 = after (l ++ [n])) by (unfold d1; rewrite after_snoc, I2; auto).
      set (s0 := {| sh_dst := d1 |}).
      assert (Hs0 : fold_left (@apply_one A E D) (sh_q s0) (set_q s0 []) =
        {| sh_dst := fst (react D d1 Uns); sh_q := []; sh_flag := true; sh_uns := true; sh_cmp := c; sh_err := e; sh_log := (l ++ [n]) ++ [Uns] |}).
      { unfold s0. cbn [fold_left sh_q]. unfold apply_one, deliver, set_q, set_dst. cbn [sh_dst sh_q sh_flag sh_uns sh_log sh_cmp sh_err closing].
        destruct (Hleaves d1 Uns) as [->| ->]; reflexivity. }
      rewrite try_apply_round; rewrite ?Hs0; [|reflexivity|discriminate].
      eexists. split; [reflexivity|]. split; [|auto].
      split; cbn [sh_dst sh_q sh_flag sh_uns sh_log]; auto.
      * rewrite after_snoc, <- Hd1. auto.
      * apply heeded_snoc; auto. discriminate.
Qed.

Lemma apply_nil (s : S) : sh_q s = [] -> apply_queue max_depth s = Fine s.
Proof. intros H. change (apply_queue (Datatypes.S 9) s = Fine s). cbn [apply_queue]. rewrite H. reflexivity. Qed.

Lemma top_inv s n : inv s -> exists s', top_call s n = Fine s' /\ inv s'.
Proof.
  intros I. pose proof I as [I1 I2 I3 I4 I5].
  assert (Hobs : forall s1 m, inv s1 -> (forall b, m = Nxt b -> st_closed s1 = false) ->
    exists s', andthen (try_obs m s1) (@try_apply A E D) = Fine s' /\ inv s').
  { intros s1 m J Hm. unfold try_obs. rewrite (apply_nil s1 (i_q J)). cbn [andthen].
    destruct (@deliver_apply s1 m J) as (s' & -> & J' & _); [intros b Hb; left; eauto|]. eauto. }
  assert (Hfine : exists s', andthen (Fine s) (@try_apply A E D) = Fine s' /\ inv s').
  { cbn [andthen]. unfold try_apply. rewrite I1. eauto. }
  unfold top_call. destruct n as [a|e| |].
  - destruct (sh_closed s) eqn:Hc; [auto|]. apply Hobs; auto. intros. unfold sh_closed in Hc. apply orb_false_iff in Hc. tauto.
  - destruct (sh_closed s) eqn:Hc; [auto|]. apply Hobs; [|discriminate]. apply inv_ext with (s := s); auto. intros. unfold st_closed, set_err. cbn. rewrite !orb_true_r. auto.
  - destruct (sh_closed s) eqn:Hc; [auto|]. apply Hobs; [|discriminate]. apply inv_ext with (s := s); auto. intros. unfold st_closed, set_cmp. cbn. rewrite !orb_true_r. auto.
  - destruct (sh_uns s) eqn:Hu; [auto|].
    unfold try_unsub. rewrite apply_nil by exact I1. cbn [andthen].
    assert (J : inv (set_flag (set_uns s))) by (apply inv_ext with (s := s); auto).
    destruct (dclosed D (sh_dst (set_flag (set_uns s)))).
    + unfold try_apply. change (sh_q (set_flag (set_uns s))) with (sh_q s). rewrite I1. eauto.
    + destruct (@deliver_apply (set_flag (set_uns s)) Uns J) as (s' & -> & J' & _); [discriminate|]. eauto.
Qed.

Lemma inv_new : inv (sh_new D d0).
Proof.
  split; cbn; auto; try discriminate.
  - intros l1 a l2 H. destruct l1; discriminate.
  - intros (l1 & a & l2 & H & _). destruct l1; discriminate.
Qed.

Lemma polls_inv tick : (forall l s, inv s -> exists done s', tick l s = (done, Fine s') /\ inv s') ->
  forall h done s, inv s -> exists s', polls tick done s h = Fine s' /\ inv s'.
Proof.
  intros Ht h. induction h as [|[l|n] h IH]; intros done s I; cbn [polls]; [eauto| |].
  - destruct done; [auto|]. destruct (@Ht l s I) as (done' & s' & -> & J). auto.
  - destruct (@top_inv s n I) as (s' & -> & J). auto.
Qed.

Lemma keyboard_inv l : forall s, inv s -> exists done s', keyboard_tick l s = (done, Fine s') /\ inv s'.
Proof.
  induction l as [|a l IH]; intros s I; cbn [keyboard_tick]; [eauto|].
  destruct (sh_closed s); [eauto|]. destruct (@top_inv s (Nxt a) I) as (s' & -> & J). auto.
Qed.
Lemma resource_inv l : forall s, inv s -> exists done s', resource_tick l s = (done, Fine s') /\ inv s'.
Proof.
  intros s I. unfold resource_tick. destruct l as [|a l]; [eauto|]. destruct (@top_inv s (Nxt a) I) as (s' & -> & J). eauto.
Qed.

Lemma keyboard_heeds h : exists s, polls (@keyboard_tick A E D) false (sh_new D d0) h = Fine s /\ heeded (sh_log s).
Proof. destruct (@polls_inv _ keyboard_inv h false _ inv_new) as (s & H & J). exists s. split; [auto|]. apply J. Qed.
Lemma resource_heeds h : exists s, polls (@resource_tick A E D) false (sh_new D d0) h = Fine s /\ heeded (sh_log s).
Proof. destruct (@polls_inv _ resource_inv h false _ inv_new) as (s & H & J). exists s. split; [auto|]. apply J. Qed.
End Re.
