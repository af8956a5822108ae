(** Facts about the deferring destination, for TimeReDelay.v and TimeReObserve.v. *)
From Coq Require Import ZArith.
From Verif Require Import Base SubscrModel SchedModel SchedProofs SchedExec TimeModel TimeLift TimeSpec TimeProofs TimeReModel TimeReSpec.
Set Implicit Arguments.

Ltac lcbn := unfold set_ct, set_df, ctr, dfr in *; cbn [note st ask clear set_shut set_over set_born set_panic w_st w_born w_shut w_over w_panic w_tr w_rs
  lp_ct lp_df df_q df_closed df_uns df_cmp df_err ct_done ct_off ct_n].

Section Passed.
Variables A E X : Type.
Variable down : list (ncall A E) -> bool * list (req X).
Notation ev := (tev A A E).

Definition owed (x : E) (l : list ev) : Prop :=
  exists p us, l = p ++ XUp (Err x) :: us /\ idle us /\ errors_pass down p.

Lemma elt_cases {Y} (a b : Y) : forall l1 l2 m1 m2, l1 ++ a :: l2 = m1 ++ b :: m2 ->
  (l1 = m1 /\ a = b /\ l2 = m2) \/ (exists t, m1 = l1 ++ a :: t /\ l2 = t ++ b :: m2) \/
  (exists t, l1 = m1 ++ b :: t /\ m2 = t ++ a :: l2).
Proof.
  induction l1 as [|x l1 IH]; intros l2 [|y m1] m2 H; simpl in H; injection H as H1 H2; subst.
  - auto.
  - right; left. exists m1. auto.
  - right; right. exists l1. auto.
  - destruct (IH _ _ _ H2) as [(-> & -> & ->)|[(t & -> & ->)|(t & -> & ->)]]; simpl; eauto 6.
Qed.

Lemma passed_nil : errors_pass down ([] : list ev).
Proof. intros [|? ?] ? ?; discriminate. Qed.
Lemma passed_snoc (l : list ev) e : errors_pass down l -> (forall x, e = XUp (Err x) -> open down l -> False) ->
  errors_pass down (l ++ [e]).
Proof.
  intros H1 H2 p x s H Ho. destruct s as [|z s] using rev_ind.
  - apply app_inj_tail in H. destruct H; subst. edestruct H2; eauto.
  - rewrite app_comm_cons, app_assoc in H. apply app_inj_tail in H. destruct H as [H _].
    destruct (H1 _ _ _ H Ho) as (us & s' & -> & Hi). exists us, (s' ++ [z]). rewrite <- app_assoc. auto.
Qed.
Lemma owed_start (l : list ev) x : errors_pass down l -> owed x (l ++ [XUp (Err x)]).
Proof. intros H. exists l, []. repeat split; auto. constructor. Qed.
Lemma owed_uns (l : list ev) x : owed x l -> owed x (l ++ [XUp Uns]).
Proof.
  intros (p & us & -> & H1 & H2). exists p, (us ++ [XUp Uns]). rewrite <- app_assoc. split; [reflexivity|split; [|auto]].
  apply Forall_app; split; auto.
Qed.
Lemma idle_in (us : list ev) e : idle us -> In e us -> e = XUp Uns.
Proof. intros H I. unfold idle in H. rewrite Forall_forall in H. apply (H e I). Qed.
Lemma owed_paid (l : list ev) x : owed x l -> errors_pass down (l ++ [XOut (Err x)]).
Proof.
  intros (p & us & -> & H1 & H2) p0 y s H Ho. rewrite <- app_assoc in H. simpl in H. symmetry in H.
  apply elt_cases in H. destruct H as [(-> & H & ->)|[(t & Hp & Hs)|(t & -> & H)]].
  - injection H as ->. exists us, []. auto.
  - destruct (H2 p0 y t Hp Ho) as (vs & s' & -> & Hi). exists vs, (s' ++ XUp (Err x) :: us ++ [XOut (Err x)]).
    rewrite Hs, <- app_assoc. auto.
  - exfalso. assert (I : In (XUp (Err y)) (us ++ [XOut (Err x)])) by (rewrite H; apply in_elt).
    apply in_app_or in I. destruct I as [I|[I|[]]]; [|discriminate]. apply (idle_in _ H1) in I. discriminate.
Qed.
Lemma owed_lately (l : list ev) x : owed x l -> lately (XUp (Err x)) l.
Proof. intros (p & us & -> & H1 & H2). exists p, us. auto. Qed.
End Passed.

Section Defer.
Variables C A E X K : Type.
Notation W := (world A A E (loop_st C A E) K X).
Notation call := (ncall A E).
Variable op_up : up_fn C A E X K.
Variable answer : list call -> list call.
Variable torn : bool.
Variable down : list call -> bool * list (req X).
Notation tell := (tell torn down).
Notation nested := (nested op_up).
Notation hit := (hit op_up answer tell).
Notation apply_one := (apply_one op_up answer tell).
Notation apply_queue n := (apply_queue op_up answer n tell).
Notation settle := (settle op_up answer tell).
Notation shared := (shared op_up answer tell).

Lemma set_df_same (w : W) : set_df (dfr w) w = w.
Proof. destruct w as [[] ? ? ? ? ? ?]; reflexivity. Qed.
Lemma set_df_twice s s' (w : W) : set_df s (set_df s' w) = set_df s w.
Proof. reflexivity. Qed.

Lemma hold_eq c (w : W) : exists s, hold c w = set_df s w.
Proof.
  exists (dfr (hold c w)). destruct w as [[ct []] ? ? ? ? ? ?]. unfold hold, push, flagged. destruct c; lcbn;
  repeat match goal with |- context [if ?b then _ else _] => destruct b end; reflexivity.
Qed.

Lemma apply_one_shut (w : W) c : w_shut w = true -> exists s, apply_one w c = set_df s w /\ df_q s = df_q (dfr w).
Proof.
  intros Hs. assert (Hh : hit c w = w). { unfold TimeReModel.hit. rewrite Hs. apply tell_shut; auto. }
  unfold TimeReModel.apply_one. rewrite Hh. replace (if df_closed (dfr w) then w else w) with w by (destruct (df_closed (dfr w)); auto).
  destruct c; try (eexists; split; [reflexivity|reflexivity]).
  exists (dfr w). rewrite set_df_same. auto.
Qed.
Lemma apply_fold_shut q : forall w : W, w_shut w = true -> df_q (dfr w) = [] ->
  exists s, fold_left apply_one q w = set_df s w /\ df_q s = [].
Proof.
  induction q as [|c q IH]; intros w Hs Hq; simpl.
  - exists (dfr w). rewrite set_df_same. auto.
  - destruct (apply_one_shut w c Hs) as (s & E1 & E2). rewrite E1.
    destruct (IH (set_df s w)) as (s' & E3 & E4); [exact Hs|exact (eq_trans E2 Hq)|].
    exists s'. rewrite E3, set_df_twice. auto.
Qed.
Lemma apply_none n (w : W) : df_q (dfr w) = [] -> apply_queue (S n) w = w.
Proof. intros H. cbn [TimeReModel.apply_queue]. rewrite H. auto. Qed.
Lemma apply_shut n (w : W) : w_shut w = true -> exists s, apply_queue (S (S n)) w = set_df s w /\ df_q s = [].
Proof.
  intros Hs. destruct (df_q (dfr w)) as [|c q] eqn:Hq.
  - exists (dfr w). rewrite set_df_same, apply_none; auto.
  - remember (S n) as n'. cbn [TimeReModel.apply_queue]. rewrite Hq. subst n'.
    match goal with |- context [fold_left _ (c :: q) ?w1] => destruct (@apply_fold_shut (c :: q) w1 Hs eq_refl) as (s & E1 & E2) end.
    rewrite E1, set_df_twice. rewrite apply_none by auto. eauto.
Qed.
Lemma settle_none (w : W) : df_q (dfr w) = [] -> settle w = w.
Proof. apply apply_none. Qed.
Lemma settle_shut (w : W) : w_shut w = true -> exists s, settle w = set_df s w /\ df_q s = [].
Proof. apply apply_shut. Qed.

Lemma apply_single n c (w : W) cl u cm er : dfr w = mkDf [c] cl u cm er ->
  apply_queue (S n) w = apply_queue n (apply_one (set_df (mkDf [] cl u cm er) w) c).
Proof. intros H. cbn [TimeReModel.apply_queue]. rewrite H. reflexivity. Qed.
Lemma settle_one c (w : W) cl u cm er : dfr w = mkDf [c] cl u cm er ->
  exists n, settle w = apply_queue (S (S n)) (apply_one (set_df (mkDf [] cl u cm er) w) c).
Proof. intros H. exists 7. exact (apply_single 9 w H). Qed.

Record rest (w : W) : Prop := mkRest {
  r_q : df_q (dfr w) = [];
  r_panic : w_panic w = false;
  r_flag : flagged w = true -> w_shut w = true
}.

Lemma rest_closed (w : W) : rest w -> is_closed w = w_shut w.
Proof. intros [H1 H2 H3]. unfold is_closed. destruct (flagged w); [rewrite H3|]; auto. Qed.

Lemma shared_shut c (w : W) : rest w -> w_shut w = true -> exists s, shared c w = set_df s w /\ df_q s = [].
Proof.
  intros H Hs. destruct H as [H1 H2 H3]. unfold TimeReModel.shared. rewrite (settle_none w H1), Hs, orb_true_r.
  destruct c; try (exists (dfr w); rewrite set_df_same; auto; fail).
  destruct (df_uns (dfr w)); [exists (dfr w); rewrite set_df_same; auto|].
  rewrite tell_shut by exact Hs. eexists; split; [reflexivity|]. exact H1.
Qed.
Lemma shared_open c (w : W) : rest w -> w_shut w = false -> (forall a, c <> Nxt a) ->
  exists s, shared c w = tell c (set_df s w) /\ df_q s = [].
Proof.
  intros H Hs Hc. destruct H as [H1 H2 H3]. unfold TimeReModel.shared. rewrite (settle_none w H1), Hs, orb_false_r.
  assert (Hf : flagged w = false) by (destruct (flagged w); auto; rewrite Hs in H3; discriminate H3; auto).
  rewrite Hf. assert (Hu : df_uns (dfr w) = false).
  { unfold flagged in Hf. destruct (df_uns (dfr w)); auto. rewrite !orb_true_r in Hf. discriminate. }
  rewrite Hu. destruct c; try (eexists; split; [reflexivity|exact H1]). edestruct Hc; eauto.
Qed.
End Defer.
