(** The publish subject used by several threads: everybody in the table hears one log. *)
From Verif Require Import Base SubscrModel PubConcModel PubConcProofs PubConcTold.
Set Implicit Arguments.

Lemma existsb_nat x l : existsb (Nat.eqb x) l = true <-> In x l.
Proof.
  rewrite existsb_exists. split; [intros (y & H & Q); apply Nat.eqb_eq in Q; subst; auto|intros H; exists x; rewrite Nat.eqb_refl; auto].
Qed.
Lemma filter_in_ne (s x : nat) l : In x (filter (fun y => negb (y =? s)) l) <-> In x l /\ x <> s.
Proof. rewrite filter_In, negb_true_iff, Nat.eqb_neq. tauto. Qed.
Lemma NoDup_nat_filter (f : nat -> bool) l : NoDup l -> NoDup (filter f l).
Proof. apply NoDup_filter. Qed.
Lemma remove_split k (l : list nat) : k < length l -> exists a b, l = a ++ nth k l 0 :: b /\ remove_nth k l = a ++ b.
Proof.
  intros H. exists (firstn k l), (skipn (S k) l). split; auto.
  revert k H. induction l; simpl; [lia|]. intros [|k] H; simpl; auto. f_equal. apply IHl. lia.
Qed.
Lemma skipn_app_le X i (a b : list X) : i <= length a -> skipn i (a ++ b) = skipn i a ++ b.
Proof. intros H. rewrite skipn_app. replace (i - length a) with 0 by lia. auto. Qed.

Section Table.
Variables V E : Type.
Notation call := (ncall (item V) E).
Notation st := (st V E).
Notation note := (note V E).
Notation icmd := (icmd V E).
Notation cmd := (cmd V E).
Variable shuts : nat -> list call -> bool.
Notation step := (step shuts).
Notation inner := (inner shuts).
Notation outer := (outer shuts).
Notation do_now := (do_now shuts).
Notation tell := (tell shuts).

(** Nothing happens to those in the table. *)
Lemma table_same (w w' : st) : table_ok w ->
  v_table w' = v_table w -> v_from w' = v_from w -> v_log w' = v_log w ->
  (forall s, v_from w s <> None -> v_dest w' s = v_dest w s) ->
  (telling w' = telling w \/ exists c, telling w = Some (c, []) /\ telling w' = None) -> table_ok w'.
Proof.
  intros H Et Ef El Hd Htl.
  assert (Ho : forall s, owing s w' = owing s w).
  { intros s. unfold owing. destruct Htl as [->|(c & -> & ->)]; auto. }
  constructor.
  - rewrite Et. apply (to_nodup H).
  - intros s. rewrite Et, Ef. apply (to_from H).
  - intros c r. rewrite Ef. destruct Htl as [->|(c' & _ & ->)]; [apply (to_tell H)|discriminate].
  - intros s. rewrite Ef, Et. intros Hf. unfold closed. rewrite Hd by auto. intros Hc.
    destruct (to_in H s Hf Hc) as [|(r & Hr & Hi)]; auto.
    destruct Htl as [->|(c & Q & ->)]; [right; eauto|]. rewrite Q in Hr. injection Hr as -> <-. destruct Hi.
  - intros s i. rewrite Ef. intros Hf. pose proof (to_heard H s Hf) as G. unfold heard, closed in *.
    rewrite El, Hd by congruence. rewrite Ho. exact G.
Qed.
(** Closed ones may go. *)
Lemma table_clean (w w' : st) : table_ok w -> telling w = None -> telling w' = None ->
  (exists f, v_table w' = filter f (v_table w) /\ forall s, f s = false -> closed s w = true) ->
  v_from w' = v_from w -> v_log w' = v_log w -> v_dest w' = v_dest w -> table_ok w'.
Proof.
  intros H T0 T1 (f & Et & Hf) Ef El Ed. constructor.
  - rewrite Et. apply NoDup_filter, (to_nodup H).
  - intros s. rewrite Et, Ef. intros Hi. apply filter_In in Hi as [Hi _]. apply (to_from H); auto.
  - rewrite T1. discriminate.
  - intros s. rewrite Ef, Et. unfold closed. rewrite Ed. intros Hfr Hc. left. apply filter_In.
    destruct (to_in H s Hfr Hc) as [Hi|(r & Q & _)]; [|congruence]. split; auto.
    destruct (f s) eqn:Q; auto. apply Hf in Q. unfold closed in Q. congruence.
  - intros s i. rewrite Ef. intros Hfr. pose proof (to_heard H s Hfr) as G. unfold heard, closed, owing in *.
    rewrite El, Ed, T1. rewrite T0 in G. exact G.
Qed.
(** All begin to be told. *)
Lemma table_start (w w' : st) c : table_ok w -> telling w = None ->
  telling w' = Some (c, v_table w) -> v_log w' = v_log w ++ [c] ->
  v_from w' = v_from w -> v_dest w' = v_dest w -> (v_table w' = v_table w \/ (v_table w' = [] /\ c = Uns)) -> table_ok w'.
Proof.
  intros H T0 T1 El Ef Ed Et. constructor.
  - destruct Et as [->|[-> _]]; [apply (to_nodup H)|constructor].
  - intros s. rewrite Ef. destruct Et as [->|[-> _]]; [apply (to_from H)|intros []].
  - intros c' r. rewrite T1, Ef. intros Q; injection Q as <- <-. split; [apply (to_nodup H)|apply (to_from H)].
  - intros s. rewrite Ef. unfold closed. rewrite Ed. intros Hf Hc. destruct (to_in H s Hf Hc) as [Hi|(r & Q & _)]; [|congruence].
    destruct Et as [->|[-> ->]]; auto. right. rewrite T1. eauto.
  - intros s i. rewrite Ef. intros Hf. pose proof (to_heard H s Hf) as G. unfold heard, closed, owing in *.
    rewrite El, Ed, T1, app_length. rewrite T0 in G. destruct G as [Hi G]. split; [lia|]. rewrite skipn_app_le by auto.
    destruct (d_closed (v_dest w s)) eqn:Hc.
    + destruct G as (x & y & e & E1 & E2 & E3). exists x, (y ++ [c]), e. rewrite E1, app_assoc. auto.
    + rewrite app_nil_r in G. rewrite G. f_equal.
      destruct (to_in H s ltac:(congruence) Hc) as [Q|(r & Q & _)]; [|congruence].
      apply existsb_nat in Q. rewrite Q. auto.
Qed.
(** One of them is told. *)
Lemma table_tell (w w' : st) c a x b : table_ok w -> telling w = Some (c, a ++ x :: b) -> telling w' = Some (c, a ++ b) ->
  v_log w' = v_log w -> v_from w' = v_from w -> v_dest w' = v_dest (tell x c w) -> v_table w' = v_table w -> table_ok w'.
Proof.
  intros H T0 T1 El Ef Ed Et. destruct (to_tell H T0) as [Hnd Hin].
  assert (Hx : ~ In x (a ++ b)) by (apply NoDup_remove_2; auto).
  assert (Hoth : forall s, s <> x -> (In s (a ++ x :: b) <-> In s (a ++ b))).
  { intros s Hs. rewrite !in_app_iff. simpl. intuition congruence. }
  constructor.
  - rewrite Et. apply (to_nodup H).
  - rewrite Et, Ef. apply (to_from H).
  - intros c' r. rewrite T1, Ef. intros Q; injection Q as <- <-. split; [apply NoDup_remove_1 in Hnd; auto|].
    intros s Hs. apply Hin. rewrite in_app_iff in *. simpl. tauto.
  - intros s. rewrite Ef, Et. unfold closed. rewrite Ed. intros Hf Hc.
    destruct (Nat.eq_dec s x) as [->|Hn].
    + destruct (closed x w) eqn:Q.
      * rewrite (tell_closed shuts x x c w Q) in Hc. unfold closed in Q. congruence.
      * destruct (to_in H x Hf Q) as [|(r & Hr & _)]; auto. rewrite T0 in Hr. injection Hr as -> _.
        rewrite (tell_open shuts x Uns w Q) in Hc. discriminate.
    + rewrite tell_other in Hc by auto. destruct (to_in H s Hf Hc) as [|(r & Hr & Hi)]; auto. right.
      rewrite T0 in Hr. injection Hr as -> <-. rewrite T1. eexists; split; eauto. apply Hoth; auto.
  - intros s i. rewrite Ef. intros Hf. pose proof (to_heard H s Hf) as G. unfold heard in *. rewrite El.
    destruct G as [Hi G]. split; auto. unfold owing in *. rewrite T0 in G. rewrite T1.
    unfold closed at 1. rewrite Ed. destruct (Nat.eq_dec s x) as [->|Hn].
    + destruct (existsb (Nat.eqb x) (a ++ b)) eqn:Q1; [apply existsb_nat in Q1; tauto|].
      assert (Q2 : existsb (Nat.eqb x) (a ++ x :: b) = true) by (apply existsb_nat; rewrite in_app_iff; simpl; auto).
      rewrite Q2 in G. destruct (closed x w) eqn:Q.
      * rewrite (tell_closed shuts x x c w Q). unfold closed in Q. rewrite Q. exact G.
      * rewrite (tell_open shuts x c w Q). simpl. rewrite app_nil_r.
        destruct (ends c || shuts x (d_told (v_dest w x) ++ [c])); auto.
        exists (d_told (v_dest w x) ++ [c]), [], []. rewrite !app_nil_r. auto.
    + rewrite tell_other by auto.
      assert (Q : existsb (Nat.eqb s) (a ++ b) = existsb (Nat.eqb s) (a ++ x :: b)).
      { apply eq_true_iff_eq. rewrite !existsb_nat. symmetry. apply Hoth; auto. }
      rewrite Q. exact G.
Qed.
(** One is removed. *)
Lemma table_off (w w' : st) x : table_ok w -> telling w = None -> telling w' = None ->
  v_log w' = v_log w -> v_from w' = v_from w -> v_dest w' = v_dest (off shuts x w) -> v_table w' = v_table (off shuts x w) -> table_ok w'.
Proof.
  intros H T0 T1 El Ef Ed Et. unfold off in *. destruct (existsb (Nat.eqb x) (v_table w)) eqn:Ex.
  2:{ apply (@table_same w); auto. { intros; rewrite Ed; auto. } left. congruence. }
  rewrite tell_table in Et. simpl in Et. set (w1 := with_table _ _) in *. constructor.
  - rewrite Et. apply NoDup_filter, (to_nodup H).
  - intros s. rewrite Et, Ef, filter_in_ne. intros [Hi _]. apply (to_from H); auto.
  - rewrite T1. discriminate.
  - intros s. rewrite Ef, Et, filter_in_ne. unfold closed. rewrite Ed. intros Hf Hc.
    destruct (Nat.eq_dec s x) as [->|Hn].
    + exfalso. destruct (closed x w1) eqn:Q.
      * rewrite (tell_closed shuts x x Uns w1 Q) in Hc. unfold closed in Q. congruence.
      * rewrite (tell_open shuts x Uns w1 Q) in Hc. discriminate.
    + rewrite tell_other in Hc by auto. destruct (to_in H s Hf Hc) as [|(r & Hr & Hi)]; auto. congruence.
  - intros s i. rewrite Ef. intros Hf. pose proof (to_heard H s Hf) as G. unfold heard in *. rewrite El.
    destruct G as [Hi G]. split; auto. unfold owing in *. rewrite T0 in G. rewrite T1.
    unfold closed at 1. rewrite Ed. destruct (Nat.eq_dec s x) as [->|Hn].
    + change (closed x w) with (closed x w1) in G. destruct (closed x w1) eqn:Q.
      * rewrite (tell_closed shuts x x Uns w1 Q). unfold closed in Q. rewrite Q. exact G.
      * rewrite (tell_open shuts x Uns w1 Q). simpl. rewrite app_nil_r in G.
        exists (skipn i (v_log w)), [], [Uns]. rewrite app_nil_r. repeat split; auto. f_equal. exact G.
    + rewrite tell_other by auto. exact G.
Qed.
(** One is added. *)
Lemma table_put (w w' : st) x : table_ok w -> telling w = None -> telling w' = None -> v_from w x = None -> fresh x w ->
  v_log w' = v_log w -> v_from w' = v_from (put x w) -> v_dest w' = v_dest w -> v_table w' = v_table (put x w) -> table_ok w'.
Proof.
  intros H T0 T1 Hn Hx El Ef Ed Et. simpl in Ef, Et.
  assert (Hnx : ~ In x (v_table w)) by (intros Q; apply (to_from H) in Q; auto).
  destruct (existsb (Nat.eqb x) (v_table w)) eqn:Q; [apply existsb_nat in Q; tauto|]. clear Q.
  constructor.
  - rewrite Et. apply NoDup_Add with (a := x) (l := v_table w).
    + replace (v_table w) with (v_table w ++ []) at 1 by apply app_nil_r. apply Add_app.
    + split; auto. apply (to_nodup H).
  - intros s. rewrite Et, Ef, in_app_iff. unfold upd. simpl. destruct (Nat.eqb_spec s x); [discriminate|].
    intros [Q|[Q|[]]]; [apply (to_from H); auto|congruence].
  - rewrite T1. discriminate.
  - intros s. rewrite Ef, Et, in_app_iff. unfold upd, closed. rewrite Ed. simpl. destruct (Nat.eqb_spec s x) as [->|]; auto.
    intros Hf Hc. destruct (to_in H s Hf Hc) as [|(r & Hr & Hi)]; auto. congruence.
  - intros s i. rewrite Ef. unfold upd. destruct (Nat.eqb_spec s x) as [->|Hs].
    + intros Q; injection Q as <-. unfold heard, closed, owing. rewrite T1, Ed, Hx, El. simpl. split; auto.
      rewrite skipn_all, Hx. auto.
    + intros Hf. pose proof (to_heard H s Hf) as G. unfold heard, closed, owing in *. rewrite T1, Ed, El. rewrite T0 in G. exact G.
Qed.

Lemma tell_from_ne (w : st) s x c : v_from w x = None -> v_from w s <> None -> v_dest (tell x c w) s = v_dest w s.
Proof. intros Hx Hs. apply tell_other. congruence. Qed.

Lemma table_inner t k i l' now w : v_lock w = Held t (i :: l') now -> shape_ok w -> inv_A w -> told_pre w -> table_ok w ->
  table_ok (by_inner shuts t k i l' now w).
Proof.
  intros El Hs HA Hp H. pose proof (@held_else V E shuts t w (i :: l') now Hs El i l' eq_refl) as Hl'.
  assert (Hn : forall x ns, i = INotes (NAdd _ _ x :: ns) -> v_from w x = None /\ fresh x w).
  { intros x ns ->. specialize (HA x) as A. assert (Q : 0 < sum (nA x) (wait w)).
    { rewrite sum_wait, El, held_cons. sums. rewrite Nat.eqb_refl. simpl. lia. }
    split; [|apply (tp_fresh Hp); right; unfold tok; lia].
    destruct (v_from w x); auto. simpl in A. destruct (v_used w x); simpl in A; lia. }
  assert (Htn : match i with ITell _ _ => True | _ => telling w = None end) by (unfold telling; rewrite El; destruct i; auto).
  unfold by_inner. destruct i as [d|[|[[]|x|x] ns]| |c [|x r]| |]; cbn [PubConcModel.inner].
  all: try (apply (@table_same w); [auto|try reflexivity..|]; left; unfold telling; simpl; rewrite El; destruct l' as [|[]]; tauto).
  - destruct (v_q w); simpl; (apply (@table_same w); auto; left; unfold telling; simpl; rewrite El; auto).
    destruct l' as [|[]]; tauto.
  - destruct (v_flag w); simpl; [apply (@table_same w); auto; left; unfold telling; simpl; rewrite El; auto|].
    eapply (@table_start w _ _ H Htn); [reflexivity|reflexivity|reflexivity|reflexivity|auto].
  - destruct (v_flag w); simpl; [apply (@table_same w); auto; left; unfold telling; simpl; rewrite El; auto|].
    eapply (@table_start w _ _ H Htn); [reflexivity|reflexivity|reflexivity|reflexivity|auto].
  - destruct (v_flag w); simpl; [apply (@table_same w); auto; left; unfold telling; simpl; rewrite El; auto|].
    eapply (@table_start w _ _ H Htn); [reflexivity|reflexivity|reflexivity|reflexivity|auto].
  - destruct (v_flag w); simpl; apply (@table_same w); auto; left; unfold telling; simpl; rewrite El; auto.
  - destruct (v_flag w); simpl; [apply (@table_same w); auto; left; unfold telling; simpl; rewrite El; auto|].
    destruct (off_same shuts x w) as (_ & _ & _ & E1 & _ & _ & _ & E2 & _).
    apply (@table_off w _ x); auto.
  - destruct (Hn x ns eq_refl) as [Hx Hfx]. assert (Ec : closed x w = false) by (unfold closed; rewrite Hfx; auto).
    simpl. rewrite Ec. destruct (v_flag w).
    + apply (@table_same w); auto; [apply tell_table|apply tell_from|apply tell_log|intros; apply tell_from_ne; auto].
    + apply (@table_put w _ x); auto.
  - simpl. apply (@table_clean w); auto.
    + unfold telling; simpl. destruct l' as [|[]]; tauto.
    + exists (fun s => negb (closed s w)). split; auto. intros s. rewrite negb_false_iff. auto.
  - apply (@table_same w); auto. right. exists c. unfold telling. rewrite El. simpl. split; auto. destruct l' as [|[]]; tauto.
  - set (q := k mod length (x :: r)). assert (Hq : q < length (x :: r)) by (apply Nat.mod_upper_bound; discriminate).
    destruct (remove_split _ Hq) as (a & b & E1 & E2).
    apply (@table_tell w _ c a (nth q (x :: r) 0) b); simpl fst; simpl snd; auto.
    + unfold telling. rewrite El, <- E1. auto.
    + unfold telling. simpl. rewrite <- E2. auto.
    + simpl. apply tell_log.
    + simpl. apply tell_from.
    + simpl. apply tell_table.
  - eapply (@table_start w _ Uns H Htn); simpl; auto.
Qed.
Lemma table_now t n w : v_lock w = Held t [] (Some n) -> inv_A w -> told_pre w -> table_ok w -> table_ok (by_now shuts t n w).
Proof.
  intros El HA Hp H. assert (Htn : telling w = None) by (unfold telling; rewrite El; auto).
  unfold by_now. destruct n as [[]|x|x]; cbn [PubConcModel.do_now]; simpl.
  - eapply (@table_start w _ _ H Htn); [reflexivity|reflexivity|reflexivity|reflexivity|auto].
  - eapply (@table_start w _ _ H Htn); [reflexivity|reflexivity|reflexivity|reflexivity|auto].
  - eapply (@table_start w _ _ H Htn); [reflexivity|reflexivity|reflexivity|reflexivity|auto].
  - apply (@table_same w); auto.
  - destruct (off_same shuts x w) as (_ & _ & _ & E1 & _ & _ & _ & E2 & _). apply (@table_off w _ x); auto.
  - specialize (HA x) as A. assert (Q : 0 < sum (nA x) (wait w)).
    { rewrite sum_wait, El, held_nil. sums. rewrite Nat.eqb_refl. simpl. lia. }
    apply (@table_put w _ x); auto; [|apply (tp_fresh Hp); right; unfold tok; lia].
    destruct (v_from w x); auto. simpl in A. destruct (v_used w x); simpl in A; lia.
Qed.
Lemma table_step w tk : shape_ok w -> inv_A w -> told_pre w -> table_ok w -> table_ok (step w tk).
Proof.
  intros Hs HA Hp H. destruct tk as [t k]. apply step_cases; auto.
  - intros c cs En _. destruct (outer_table shuts t c w) as (E1 & E2 & E3). apply (@table_same w); auto.
    + intros s Hf. simpl. destruct (outer_dest shuts t c w s) as [|(Hq & _)]; auto. exfalso.
      specialize (HA s). pose proof (total_in (fA s) t (v_thr w) c) as H3. rewrite En in H3. specialize (H3 (or_introl eq_refl)).
      destruct (v_from w s); [|congruence]. simpl in HA. destruct (v_used w s); simpl in HA; lia.
    + left. apply outer_telling.
  - intros. apply table_inner; auto.
  - intros. apply table_now; auto.
  - intros l' now El. apply (@table_same w); auto. left. unfold telling. rewrite El. auto.
  - intros El. apply (@table_same w); auto. left. unfold telling. rewrite El. auto.
Qed.

(** All of it. *)
Record base_ok (w : st) : Prop := {
  b_shape : shape_ok w; b_A : inv_A w; b_B : inv_B w; b_pre : told_pre w; b_table : table_ok w
}.
Lemma base_step w tk : base_ok w -> base_ok (step w tk).
Proof.
  intros []. constructor; [apply shape_step|apply A_step|apply B_step|apply pre_step|apply table_step]; auto.
Qed.
Lemma base_run ts w : base_ok w -> base_ok (run shuts ts w).
Proof. revert w. induction ts; simpl; auto. intros w H. apply IHts, base_step, H. Qed.
Lemma total_start (f : cmd -> nat) progs : (forall o, f (KOp o) = 0) -> total f (v_thr (start progs)) = 0.
Proof.
  intros H. simpl. unfold total. induction progs as [|p ps IH]; simpl; rewrite ?sum_nil, ?sum_cons; auto.
  rewrite IH. assert (Q : sum f (map (@KOp V E) p) = 0); [|lia]. induction p; simpl; rewrite ?sum_nil, ?sum_cons; auto. rewrite H. auto.
Qed.
Lemma base_start progs : base_ok (start progs).
Proof.
  constructor.
  - intros ? ? ? Q. discriminate.
  - intros s. rewrite total_start by auto. simpl. sums. auto.
  - intros s. rewrite total_start by auto. simpl. auto.
  - constructor; intros s; [reflexivity|left; reflexivity|left; reflexivity].
  - constructor; simpl; try discriminate; [constructor|tauto|congruence].
Qed.
Lemma base ts progs : base_ok (run shuts ts (start progs)).
Proof. apply base_run, base_start. Qed.

(** What each destination has heard, in terms of the log. *)
Lemma told_log w s : base_ok w ->
  d_told (v_dest w s) = [] \/
  (exists c, ends c = true /\ v_dest w s = mkD [c] true /\ v_from w s = None) \/
  (exists i, v_from w s = Some i /\ exists x y e, skipn i (v_log w) = x ++ y /\ d_told (v_dest w s) = x ++ e /\
     (e = [] \/ (e = [Uns] /\ closed s w = true)) /\
     (closed s w = false -> y = owing s w)).
Proof.
  intros H. destruct (v_from w s) as [i|] eqn:Ef.
  - right. right. exists i. split; auto. destruct (to_heard (b_table H) s Ef) as [_ G]. destruct (closed s w).
    + destruct G as (x & y & e & E1 & E2 & E3). exists x, y, e. repeat split; auto; [tauto|discriminate].
    + exists (d_told (v_dest w s)), (owing s w), []. rewrite app_nil_r, G. auto.
  - destruct (tp_none (b_pre H) s Ef) as [F|(c & ? & ?)]; [left; rewrite F; auto|right; left; eauto].
Qed.
End Table.
