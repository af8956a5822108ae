(** Facts for TimeReFallback.v and TimeReThrottle.v. *)
From Verif Require Import Base SubscrModel SchedModel SchedProofs SchedExec TimeModel TimeLift TimeSpec TimeProofs
  TimeReModel TimeReSpec TimeReProofs TimeReMoreModel TimeReMoreSpec.
Set Implicit Arguments.

Section Ends.
Variables A E X : Type.
Variable down : list (ncall A E) -> bool * list (req X).
Notation ev := (tev A A E).

Definition owing (c : ncall A E) (l : list ev) : Prop :=
  exists p us, l = p ++ XUp c :: us /\ idle us /\ ends_pass down p.

Lemma ends_nil : ends_pass down ([] : list ev).
Proof. intros [|? ?] ? ?; discriminate. Qed.
Lemma ends_snoc (l : list ev) e : ends_pass down l -> (forall c, e = XUp c -> (forall a, c <> Nxt a) -> going l -> open down l -> False) ->
  ends_pass down (l ++ [e]).
Proof.
  intros H1 H2 p x s H Hg Hc Ho. destruct s as [|z s] using rev_ind.
  - apply app_inj_tail in H. destruct H; subst. edestruct H2; eauto.
  - rewrite app_comm_cons, app_assoc in H. apply app_inj_tail in H. destruct H as [H _].
    destruct (H1 _ _ _ H Hg Hc Ho) as (us & s' & -> & Hi). exists us, (s' ++ [z]). rewrite <- app_assoc. auto.
Qed.
Lemma owing_start (l : list ev) c : ends_pass down l -> owing c (l ++ [XUp c]).
Proof. intros H. exists l, []. repeat split; auto. constructor. Qed.
Lemma owing_uns (l : list ev) c : owing c l -> owing c (l ++ [XUp Uns]).
Proof.
  intros (p & us & -> & H1 & H2). exists p, (us ++ [XUp Uns]). rewrite <- app_assoc. split; [reflexivity|split; [|auto]].
  apply Forall_app; split; auto.
Qed.
Lemma owing_lately (l : list ev) c : owing c l -> lately (XUp c) l.
Proof. intros (p & us & -> & H1 & H2). exists p, us. auto. Qed.
Lemma owing_paid (l : list ev) c : owing c l -> (forall a, c <> Nxt a) -> ends_pass down (l ++ [XOut c]).
Proof.
  intros (p & us & -> & H1 & H2) Hc p0 y s H Hg Hy Ho. rewrite <- app_assoc in H. simpl in H. symmetry in H.
  apply elt_cases in H. destruct H as [(-> & H & ->)|[(t & Hp & Hs)|(t & -> & H)]].
  - injection H as ->. exists us, []. auto.
  - destruct (H2 p0 y t Hp Hg Hy Ho) as (vs & s' & -> & Hi). exists vs, (s' ++ XUp c :: us ++ [XOut c]).
    rewrite Hs, <- app_assoc. auto.
  - exfalso. destruct (Hg c) as [a Ha]; [apply in_elt|]. apply (Hc a Ha).
Qed.
Lemma ends_over (l : list ev) e c : ends_pass down l -> In (XUp c) l -> (forall a, c <> Nxt a) -> ends_pass down (l ++ [e]).
Proof. intros H Hi Hc. apply ends_snoc; auto. intros c0 _ _ Hg _. destruct (Hg c Hi) as [a Ha]. apply (Hc a Ha). Qed.
End Ends.

Section Apply.
Variables C A E X K : Type.
Notation W := (world A A E (loop_st C A E) K X).
Notation call := (ncall A E).
Variable op_up : up_fn C A E X K.
Variable answer : list call -> list call.
Variable torn : bool.
Variable down : list call -> bool * list (req X).
Notation tell := (tell torn down).
Notation apply_one := (apply_one op_up answer tell).
Notation apply_queue n := (apply_queue op_up answer n tell).
Notation settle := (settle op_up answer tell).

Lemma apply_rest_shut q : forall w : W, w_shut w = true -> exists s, fold_left apply_one q w = set_df s w.
Proof.
  induction q as [|c q IH]; intros w Hs; simpl.
  - exists (dfr w). rewrite set_df_same. auto.
  - destruct (apply_one_shut op_up answer torn down w c Hs) as (s & E1 & E2). rewrite E1.
    destruct (IH (set_df s w) Hs) as (s' & E3). exists s'. rewrite E3, set_df_twice. auto.
Qed.
(** The first of the queue closes the destination. *)
Lemma settle_end c q (w : W) cl u cm er : dfr w = mkDf (c :: q) cl u cm er ->
  w_shut (apply_one (set_df (mkDf [] cl u cm er) w) c) = true ->
  exists s, settle w = set_df s (apply_one (set_df (mkDf [] cl u cm er) w) c) /\ df_q s = [].
Proof.
  intros Hd Hs. unfold TimeReModel.settle. change 10 with (S (S (S 7))). remember (S (S 7)) as n. cbn [TimeReModel.apply_queue].
  rewrite Hd. cbv zeta. cbn [fold_left df_q df_closed df_uns df_cmp df_err].
  destruct (apply_rest_shut q _ Hs) as (s & Es). rewrite Es. subst n.
  destruct (apply_shut op_up answer torn down 7 (set_df s (apply_one (set_df (mkDf [] cl u cm er) w) c)) Hs) as (s' & -> & Hq).
  exists s'. rewrite set_df_twice. auto.
Qed.
End Apply.
