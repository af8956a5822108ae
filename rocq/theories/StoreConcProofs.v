(** The storing subjects used by several threads: operations handed to the publish subject one after
    the other. *)
From Verif Require Import Base SubscrModel PubConcModel PubConcSpec PubConcProofs PubConcTold PubConcTable PubConcOrder PubConcArrive PubConcHear PubConcEnd PubConcMain PubConcBefore PubConcClosed StoreConcModel StoreConcSpec.
Set Implicit Arguments.

Section Feed.
Variables V E : Type.
Notation call := (ncall (item V) E).
Notation st := (st V E).
Notation cmd := (cmd V E).
Variable shuts : nat -> list call -> bool.
Notation step := (step shuts).

Lemma feed_nth t o (w : st) u : t < length (v_thr w) -> nth u (v_thr (feed t o w)) [] = if u =? t then [KOp o] else nth u (v_thr w) [].
Proof.
  intros H. simpl. destruct (Nat.eqb_spec u t) as [->|Hn]; [apply nth_set_same; auto|apply nth_set_other; auto].
Qed.
Lemma total_feed (f : cmd -> nat) t o (thr : list (list cmd)) : f (KOp o) = 0 -> nth t thr [] = [] -> total f (set_nth t [KOp o] thr) = total f thr.
Proof.
  intros Hf. unfold total. revert t. induction thr as [|y thr IH]; intros [|t]; simpl; auto; rewrite ?sum_cons.
  - intros ->. rewrite ?sum_cons, ?sum_nil, Hf. lia.
  - intros H. rewrite (IH t H). auto.
Qed.
Lemma feed_all t o (w : st) : nth t (v_thr w) [] = [] -> all_ok w -> all_ok (feed t o w).
Proof.
  intros Hn [[Hs HA HB Hp Ht] Ho Hc Ha].
  assert (Hnth : forall u, nth u (v_thr (feed t o w)) [] = [KOp o] \/ nth u (v_thr (feed t o w)) [] = nth u (v_thr w) []).
  { intros u. simpl. apply nth_set. }
  constructor; [constructor| | |].
  - exact Hs.
  - intros s. simpl. rewrite total_feed by auto. apply HA.
  - intros s. simpl. rewrite total_feed by auto. apply HB.
  - constructor.
    + intros s. unfold tok. simpl. rewrite total_feed by auto. apply (tp_fresh Hp).
    + intros s. simpl. rewrite total_feed by auto. apply (tp_sub Hp).
    + apply (tp_none Hp).
  - destruct Ht. constructor; auto.
  - constructor; [|apply (ow_now Ho)]. intros u. destruct (Hnth u) as [->| ->]; [repeat constructor|apply (ow_k Ho)].
  - constructor.
    + intros u. destruct (Hnth u) as [->| ->]; [|apply (ca_stack Hc)]. apply quiet_stack. repeat constructor.
    + intros u l s Q. pose proof (ca_now Hc Q) as F. destruct (Nat.eq_dec t u) as [<-|Hu]; [rewrite Hn in F; destruct F|].
      simpl. rewrite nth_set_other by auto. auto.
  - constructor; [apply (ar_had Ha)|]. intros s u. destruct (Hnth u) as [->| ->]; [|apply (ar_have Ha)].
    intros [F|[]]. discriminate.
Qed.
Lemma len_set X n (x : X) l : length (set_nth n x l) = length l.
Proof. revert n. induction l; intros [|n]; simpl; auto. Qed.
Lemma len_step w tk : length (v_thr (step w tk)) = length (v_thr w).
Proof.
  destruct tk as [t k]. apply (@step_cases V E shuts (fun w' => length (v_thr w') = length (v_thr w))); auto.
  - intros c cs _ _. simpl. apply len_set.
  - intros i l' now _ _. simpl. rewrite inner_thr. auto.
  - intros n _. simpl. rewrite now_thr. auto.
  - intros. simpl. apply len_set.
Qed.

(** The lines of a thread that is handed an operation. *)
Lemma feed_line t o (w : st) u : t < length (v_thr w) -> nth t (v_thr w) [] = [] ->
  line u (feed t o w) = line u w ++ (if u =? t then val_k (KOp o) else []).
Proof.
  intros Hl Hn. unfold line. rewrite feed_nth by auto. change (wait (feed t o w)) with (wait w). change (v_log (feed t o w)) with (v_log w).
  destruct (Nat.eqb_spec u t) as [->|_]; [rewrite Hn; simpl|]; rewrite ?app_nil_r, <- ?app_assoc; auto.
Qed.
Lemma feed_hline t o (w : st) s u : t < length (v_thr w) -> nth t (v_thr w) [] = [] ->
  hline s u (feed t o w) = hline s u w ++ (if u =? t then val_k (KOp o) else []).
Proof.
  intros Hl Hn. unfold hline. rewrite feed_nth by auto. change (rest s (feed t o w)) with (rest s w). change (tail_log s (feed t o w)) with (tail_log s w).
  destruct (Nat.eqb_spec u t) as [->|_]; [rewrite Hn; simpl|]; rewrite ?app_nil_r, <- ?app_assoc; auto.
Qed.
Lemma feed_sline t o (w : st) s u : t < length (v_thr w) -> nth t (v_thr w) [] = [] ->
  sline s u (feed t o w) = sline s u w ++ (if u =? t then val_k (KOp o) else []).
Proof.
  intros Hl Hn. unfold sline. rewrite feed_nth by auto. change (tail_wait s (feed t o w)) with (tail_wait s w). change (tail_log s (feed t o w)) with (tail_log s w).
  destruct (Nat.eqb_spec u t) as [->|_]; [rewrite Hn; simpl|]; rewrite ?app_nil_r, <- ?app_assoc; auto.
Qed.
Lemma feed_pending t o (w : st) u : t < length (v_thr w) -> nth t (v_thr w) [] = [] ->
  pending u (feed t o w) = pending u w ++ (if u =? t then val_k (KOp o) else []).
Proof.
  intros Hl Hn. unfold pending. rewrite feed_nth by auto. change (at_hand (feed t o w)) with (at_hand w).
  destruct (Nat.eqb_spec u t) as [->|_]; [rewrite Hn; simpl|]; rewrite ?app_nil_r, <- ?app_assoc; auto.
Qed.
Lemma pending_step w tk t : all_ok w -> sub (pending t (step w tk)) (pending t w).
Proof.
  intros Hall. pose proof (a_own Hall) as Ho. destruct tk as [u k].
  apply (@step_cases V E shuts (fun w' => sub (pending t w') (pending t w))).
  - apply sub_refl.
  - intros c cs En Hl. pose proof (ow_k Ho u) as Hku. rewrite En in Hku. inversion Hku as [|? ? H1 H2]; subst.
    set (w' := by_outer shuts u c cs w).
    assert (Eh : (exists n, c = KTry n /\ v_lock w = Free /\ at_hand w' = Some n /\ at_hand w = None) \/ at_hand w' = at_hand w /\ forall n, c = KTry n -> v_lock w <> Free).
    { unfold at_hand. change (v_lock w') with (v_lock (snd (outer shuts u c w))).
      destruct (outer_lock shuts u c w) as [Q|(F1 & now' & F2 & [(n & -> & ->)|[-> ->]])].
      - right. rewrite Q. split; auto. intros n -> F. simpl in Q. rewrite F in Q. discriminate.
      - left. exists n. rewrite F1, F2. auto.
      - right. rewrite F1, F2. split; auto. discriminate. }
    destruct Eh as [(n & -> & E1 & E2 & E3)|[E1 E2]]; unfold pending.
    + rewrite E2, E3. simpl in H1. destruct (Nat.eq_dec u t) as [<-|Hn].
      * assert (Et : nth u (v_thr w') [] = cs).
        { simpl. rewrite nth_set_same by (apply nth_cons_lt in En; auto). rewrite E1. auto. }
        rewrite Et, En. change (valk (KTry n :: cs)) with (val_k (KTry n) ++ valk cs). rewrite (@own_same _ _ u n H1). apply sub_refl.
      * assert (Et : nth t (v_thr w') [] = nth t (v_thr w) []) by (simpl; apply nth_set_other; auto).
        rewrite Et, (@own_other _ _ t u n H1 Hn). apply sub_refl.
    + rewrite E1. apply sub_app; [apply sub_refl|]. destruct (Nat.eq_dec u t) as [<-|Hn].
      * assert (Et : nth u (v_thr w') [] = fst (outer shuts u c w) ++ cs).
        { simpl. apply nth_set_same. apply nth_cons_lt in En; auto. }
        rewrite Et, En, valk_app. change (valk (c :: cs)) with (val_k c ++ valk cs). apply sub_app; [|apply sub_refl].
        pose proof (val_step shuts u c w H1) as HV.
        destruct c as [[]| | | | | | | | | | |n|n| |]; try apply HV.
        -- specialize (E2 n eq_refl). simpl. destruct (v_lock w); try congruence; simpl; rewrite ?app_nil_r; apply sub_refl.
        -- rewrite HV. apply sub_none.
      * assert (Et : nth t (v_thr w') [] = nth t (v_thr w) []) by (simpl; apply nth_set_other; auto). rewrite Et. apply sub_refl.
  - intros i l' now El _. unfold pending. rewrite (inner_hand shuts k w El). simpl v_thr. rewrite inner_thr. apply sub_refl.
  - intros n El. unfold pending. simpl. rewrite now_thr. apply sub_left, sub_refl.
  - intros l' now El. unfold pending. simpl. apply sub_left. destruct (nth_set u t [] [] (v_thr w)) as [->| ->]; [apply sub_none|apply sub_refl].
  - intros El. unfold pending, at_hand. simpl. rewrite El. apply sub_refl.
Qed.
(** Who is not inside carries nothing. *)
Lemma outside t (w : st) : inside t w = false -> nth t (v_thr w) [] = [] /\ forall l now, v_lock w <> Held t l now.
Proof.
  unfold inside. intros H. apply orb_false_elim in H as [H1 H2]. split.
  - destruct (nth t (v_thr w) []); auto. discriminate.
  - intros l now Q. rewrite Q, Nat.eqb_refl in H1. discriminate.
Qed.
Lemma outside_pending t (w : st) : own_ok w -> inside t w = false -> pending t w = [].
Proof.
  intros Ho H. apply outside in H as [H1 H2]. unfold pending, at_hand. rewrite H1. simpl. rewrite app_nil_r.
  destruct (v_lock w) as [|u l [n|]|] eqn:El; auto. apply (@own_other _ _ t u n (ow_now Ho El)). intros ->. apply (H2 _ _ eq_refl).
Qed.
End Feed.
