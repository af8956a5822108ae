(** The publish subject used by several threads: who subscribes hears nothing of what was pushed
    before. *)
From Verif Require Import Base SubscrModel PubConcModel PubConcSpec PubConcProofs PubConcTold PubConcTable PubConcOrder PubConcArrive PubConcHear PubConcMain.
Set Implicit Arguments.

Section Before.
Variables V E : Type.
Notation call := (ncall (item V) E).
Notation st := (st V E).
Notation note := (note V E).
Notation icmd := (icmd V E).
Notation cmd := (cmd V E).
Variable shuts : nat -> list call -> bool.
Notation step := (step shuts).
Notation inner := (inner shuts).
Notation outer := (outer shuts).
Notation do_now := (do_now shuts).
Notation ADD s := (NAdd V E s).

(** What [s] may still hear of what waits. *)
Definition rest (s : nat) (w : st) : list note :=
  match v_from w s with
  | Some _ => wait w
  | None => if add_dec s (wait w) then after s (wait w) else opt (at_hand w)
  end.
Definition hline (s t : nat) (w : st) : list V :=
  vals t (tail_log s w) ++ valn t (rest s w) ++ valk (nth t (v_thr w) []).

Lemma sub_valn t (a b : list note) : sub a b -> sub (valn t a) (valn t b).
Proof.
  induction 1; simpl; [constructor| |].
  - apply sub_app; auto. apply sub_refl.
  - change (valn t a) with ([] ++ valn t a). apply sub_app; auto. apply sub_none.
Qed.
Lemma sub_left X (a b c : list X) : sub a c -> sub a (b ++ c).
Proof. intros H. change a with ([] ++ a). apply sub_app; auto. apply sub_none. Qed.
Lemma after_skip s a (b : list note) : ~ In (ADD s) a -> after s (a ++ b) = after s b.
Proof.
  induction a as [|n a IH]; auto. intros H. change ((n :: a) ++ b) with (n :: (a ++ b)). rewrite after_cons; [|intros ->; apply H; left; auto].
  apply IH. intros F. apply H. right; auto.
Qed.
Lemma after_last s (a : list note) : ~ In (ADD s) a -> after s (a ++ [ADD s]) = [].
Proof. intros H. rewrite after_skip by auto. simpl. rewrite Nat.eqb_refl. auto. Qed.
Lemma sub_trans X (a b c : list X) : sub a b -> sub b c -> sub a c.
Proof.
  intros H1 H2. revert a H1. induction H2; intros a' H1; auto.
  - inversion H1; subst; [apply sub_keep|apply sub_drop]; auto.
  - apply sub_drop. auto.
Qed.
Lemma after_sub s (l : list note) : sub (after s l) l.
Proof.
  induction l as [|n l IH]; [constructor|]. destruct (note_dec s n) as [->|Hn].
  - simpl. rewrite Nat.eqb_refl. apply sub_drop, sub_refl.
  - rewrite after_cons by auto. apply sub_drop; auto.
Qed.
Lemma hand_sub (w : st) : sub (opt (at_hand w)) (wait w).
Proof.
  unfold at_hand, wait. destruct (v_lock w) as [|t [|i l] now|]; simpl; try apply sub_none.
  - rewrite <- (app_nil_r (opt now)) at 1. apply sub_app; [apply sub_refl|apply sub_none].
  - apply sub_left. apply sub_left. apply sub_refl.
Qed.
Lemma rest_sub s (w : st) : sub (rest s w) (wait w).
Proof. unfold rest. destruct (v_from w s); [apply sub_refl|]. destruct (add_dec s (wait w)); [apply after_sub|apply hand_sub]. Qed.

Lemma sub_skip X i (l d : list X) : sub (skipn i l) (skipn i (l ++ d)).
Proof.
  revert i. induction l as [|x l IH]; intros [|i]; simpl; try apply sub_none.
  - constructor. apply (IH 0).
  - apply IH.
Qed.
(** Consuming the first of the line. *)
Lemma hline_take w w' s t n d :
  base_ok w -> v_thr w' = v_thr w -> wait w = n :: wait w' -> v_log w' = v_log w ++ d -> sub (vals t d) (val_n t n) ->
  (n = ADD s -> v_from w' s = None \/ v_from w' s = Some (length (v_log w)) /\ d = []) -> (n <> ADD s -> v_from w' s = v_from w s) ->
  at_hand w' = at_hand w \/ at_hand w' = None ->
  sub (hline s t w') (hline s t w).
Proof.
  intros Hb Et Ew El Ed H1 H2 Hh. unfold hline. rewrite Et, !app_assoc. apply sub_app; [|apply sub_refl].
  destruct (note_dec s n) as [->|Hn].
  - assert (Q : v_from w s = None).
    { pose proof (b_A Hb s) as A. rewrite Ew, sum_cons in A. simpl in A. rewrite Nat.eqb_refl in A. simpl in A.
      destruct (v_from w s); auto. simpl in A. destruct (v_used w s); simpl in A; lia. }
    assert (Qr : rest s w = wait w').
    { unfold rest. rewrite Q. destruct (add_dec s (wait w)) as [_|F]; [|rewrite Ew in F; exfalso; apply F; left; auto].
      rewrite Ew. simpl. rewrite Nat.eqb_refl. auto. }
    assert (Ql : tail_log s w' = []).
    { unfold tail_log. destruct (H1 eq_refl) as [->|[-> ->]]; auto. rewrite El, app_nil_r, skipn_all. auto. }
    rewrite Qr, Ql. simpl. apply sub_left, sub_valn, rest_sub.
  - specialize (H2 Hn). unfold tail_log, rest. rewrite H2. destruct (v_from w s) as [i|] eqn:Ef.
    + rewrite El, skipn_app_le by (apply (from_le s Hb Ef)). rewrite vals_app, Ew. simpl. rewrite <- !app_assoc.
      apply sub_app; [apply sub_refl|]. apply sub_app; auto. apply sub_refl.
    + simpl. apply sub_valn. rewrite Ew. rewrite after_cons by auto.
      destruct (add_dec s (wait w')) as [F|F], (add_dec s (n :: wait w')) as [G|G]; try apply sub_refl.
      * exfalso. apply G. right; auto.
      * exfalso. destruct G as [G|G]; auto.
      * destruct Hh as [-> | ->]; [apply sub_refl|apply sub_none].
Qed.
Lemma hline_same w w' s t d : base_ok w -> v_thr w' = v_thr w -> wait w = wait w' -> v_log w' = v_log w ++ d -> vals t d = [] ->
  v_from w' s = v_from w s -> at_hand w' = at_hand w -> hline s t w' = hline s t w.
Proof.
  intros Hb Et Ew El Ed Ef Eh. unfold hline, tail_log, rest. rewrite Et, Ew, El, Ef, Eh.
  destruct (v_from w s) as [i|] eqn:Q; auto. rewrite skipn_app_le by (apply (from_le s Hb Q)). rewrite vals_app, Ed, app_nil_r. auto.
Qed.
Lemma inner_hand u k i l' now w : v_lock w = Held u (i :: l') now -> at_hand (by_inner shuts u k i l' now w) = at_hand w.
Proof. intros Q. unfold at_hand. simpl. rewrite Q. auto. Qed.

Lemma hline_step w tk s t : all_ok w -> sub (hline s t (step w tk)) (hline s t w).
Proof.
  intros Hall. pose proof (a_base Hall) as Hb. pose proof (b_shape Hb) as Hs. pose proof (a_own Hall) as Ho.
  destruct tk as [u k]. apply (@step_cases V E shuts (fun w' => sub (hline s t w') (hline s t w))).
  - apply sub_refl.
  - intros c cs En Hl. pose proof (ow_k Ho u) as Hku. rewrite En in Hku. inversion Hku as [|? ? H1 H2]; subst.
    destruct (outer_table shuts u c w) as (_ & Ef & El).
    set (w' := by_outer shuts u c cs w).
    assert (Hw : tail_log s w' = tail_log s w).
    { unfold tail_log. change (v_from w') with (v_from (snd (outer u c w))).
      change (v_log w') with (v_log (snd (outer u c w))). rewrite Ef, El. auto. }
    assert (Efr : v_from w' s = v_from w s) by (change (v_from w') with (v_from (snd (outer u c w))); rewrite Ef; auto).
    unfold hline. rewrite Hw. apply sub_app; [apply sub_refl|].
    (* what the command says, and what waits *)
    assert (Hkeep : sub (valn t (rest s w')) (valn t (rest s w)) -> sub (valk (fst (outer u c w))) (val_k c) ->
       sub (valn t (rest s w') ++ valk (nth t (v_thr w') [])) (valn t (rest s w) ++ valk (nth t (v_thr w) []))).
    { intros Hr Hk. apply sub_app; auto. destruct (Nat.eq_dec u t) as [<-|Hn].
      - rewrite En. assert (Et : nth u (v_thr w') [] = fst (outer u c w) ++ cs) by (simpl; apply nth_set_same; apply nth_cons_lt in En; auto).
        rewrite Et, valk_app. change (valk (c :: cs)) with (val_k c ++ valk cs). apply sub_app; auto. apply sub_refl.
      - assert (Et : nth t (v_thr w') [] = nth t (v_thr w) []) by (simpl; apply nth_set_other; auto). rewrite Et. apply sub_refl. }
    assert (Hmove : forall n, own_n u n -> val_k c = val_k (@KTry V E n) -> fst (outer u c w) = [] ->
       (sub (valn t (rest s w')) (valn t (rest s w)) \/ valn t (rest s w') = valn t (rest s w) ++ (if u =? t then val_n t n else [])) ->
       sub (valn t (rest s w') ++ valk (nth t (v_thr w') [])) (valn t (rest s w) ++ valk (nth t (v_thr w) []))).
    { intros n Hown Hc Hf [Hr|Hr]; [apply Hkeep; auto; rewrite Hf; apply sub_none|].
      rewrite Hr. destruct (Nat.eqb_spec u t) as [<-|Hn].
      - rewrite En. assert (Et : nth u (v_thr w') [] = fst (outer u c w) ++ cs) by (simpl; apply nth_set_same; apply nth_cons_lt in En; auto).
        rewrite Et, Hf. change (valk (c :: cs)) with (val_k c ++ valk cs). rewrite Hc, (@own_same _ _ u n Hown), <- app_assoc. apply sub_refl.
      - assert (Et : nth t (v_thr w') [] = nth t (v_thr w) []) by (simpl; apply nth_set_other; auto). rewrite Et, app_nil_r. apply sub_refl. }
    pose proof (val_step shuts u c w H1) as HV.
    destruct (outer_wait shuts u c cs w) as [(E1 & E2 & E3)|[(n & -> & E2 & E1)|(n & a & b & -> & _ & Ea & Eb & Hb')]].
    + apply Hkeep.
      * unfold rest. fold w' in E1. rewrite Efr, E1. destruct (v_from w s); [apply sub_refl|]. destruct (add_dec s (wait w)); [apply sub_refl|].
        match goal with |- sub ?a ?b => replace a with b; [apply sub_refl|] end. do 2 f_equal. unfold at_hand. change (v_lock w') with (v_lock (snd (outer u c w))).
        destruct (outer_lock shuts u c w) as [->|(F1 & now' & F2 & [(n0 & Hc & _)|[_ ->]])]; auto; [|rewrite F1, F2; auto].
        exfalso. apply (E2 n0 Hc F1).
      * destruct c as [[]| | | | | | | | | | |n|n| |]; try apply HV.
        -- specialize (E2 n eq_refl). simpl. destruct (v_lock w); try congruence; simpl; rewrite ?app_nil_r; apply sub_refl.
        -- rewrite HV. apply sub_none.
    + simpl in H1. apply (@Hmove n); auto.
      { simpl. rewrite E2. auto. }
      assert (Ehw : at_hand w = None) by (unfold at_hand; rewrite E2; auto).
      assert (Ehw' : at_hand w' = Some n) by (unfold at_hand; simpl; rewrite E2; auto).
      assert (Hn : valn t [n] = if u =? t then val_n t n else []).
      { simpl. rewrite app_nil_r. destruct (Nat.eqb_spec u t); auto. apply (@own_other _ _ t u n H1); auto. }
      rewrite <- Hn. unfold rest. fold w' in E1. rewrite Efr, E1. destruct (v_from w s); [right; apply valn_app|].
      destruct (add_dec s (wait w)) as [F|F].
      { right. destruct (add_dec s (wait w ++ [n])) as [G|G]; [|exfalso; apply G, in_or_app; auto]. rewrite after_app by auto. apply valn_app. }
      rewrite Ehw, Ehw'. destruct (note_dec s n) as [->|Hnn].
      { left. destruct (add_dec s (wait w ++ [ADD s])) as [G|G]; [|exfalso; apply G, in_or_app; simpl; auto]. rewrite after_last by auto. apply sub_none. }
      right. destruct (add_dec s (wait w ++ [n])) as [G|G]; auto. apply in_app_or in G as [G|[G|[]]]; [tauto|congruence].
    + simpl in H1. apply (@Hmove n); auto.
      assert (Hv : forall a', valn t (a' ++ n :: b) = valn t (a' ++ b) ++ (if u =? t then val_n t n else [])).
      { intros a'. change (n :: b) with ([n] ++ b). rewrite !valn_app, <- app_assoc. f_equal. simpl valn at 1. rewrite app_nil_r.
        destruct (Nat.eqb_spec u t) as [<-|Hn].
        - assert (Q : valn u b = []).
          { destruct Hb' as [->|(t' & l & n' & Elk & ->)]; auto. simpl. rewrite app_nil_r. apply (@own_other _ _ u t').
            - apply (ow_now Ho Elk).
            - intros ->. apply (Hl _ _ Elk). }
          rewrite Q, app_nil_r. auto.
        - rewrite (@own_other _ _ t u n H1 Hn), app_nil_r. auto. }
      assert (Ehw : at_hand w' = at_hand w).
      { unfold at_hand. change (v_lock w') with (v_lock (snd (outer u (KDefer n) w))).
        destruct (outer_lock shuts u (KDefer n) w) as [->|(_ & now' & _ & [(n' & Hc & _)|[Hc _]])]; auto; discriminate. }
      assert (Hbh : sub b (opt (at_hand w))).
      { unfold at_hand. destruct Hb' as [->|(t' & l & n' & -> & ->)]; [apply sub_none|apply sub_refl]. }
      unfold rest. fold w' in Eb. rewrite Efr, Ehw, Ea, Eb. destruct (v_from w s); [right; apply Hv|].
      destruct (add_dec s a) as [F|F].
      { right. destruct (add_dec s (a ++ b)) as [G|G]; [|exfalso; apply G, in_or_app; auto].
        destruct (add_dec s (a ++ n :: b)) as [G'|G']; [|exfalso; apply G', in_or_app; auto]. rewrite !after_app by auto. apply Hv. }
      left. destruct (add_dec s b) as [Fb|Fb].
      { assert (b = [ADD s]) as ->.
        { destruct Hb' as [->|(t' & l & n' & _ & ->)]; [destruct Fb|]. destruct Fb as [->|[]]. auto. }
        destruct (add_dec s (a ++ n :: [ADD s])) as [G|G]; [|exfalso; apply G, in_or_app; simpl; auto].
        replace (valn t (after s (a ++ [n; ADD s]))) with (@nil V); [apply sub_none|].
        rewrite after_skip by auto. destruct (note_dec s n) as [->|Hn].
        - simpl. rewrite Nat.eqb_refl. auto.
        - rewrite after_cons by auto. simpl. rewrite Nat.eqb_refl. auto. }
      destruct (add_dec s (a ++ b)) as [G|G]; [apply in_app_or in G; tauto|].
      destruct (note_dec s n) as [->|Hn].
      { destruct (add_dec s (a ++ ADD s :: b)) as [G'|G']; [|apply sub_refl]. rewrite after_skip by auto. simpl. rewrite Nat.eqb_refl. apply sub_valn; auto. }
      destruct (add_dec s (a ++ n :: b)) as [G'|G']; [|apply sub_refl]. apply in_app_or in G' as [G'|[G'|G']]; tauto.
  - intros i l' now El _. destruct (inner_logd shuts t k i w) as (d & Ed & Ev).
    pose proof (inner_waits shuts k El Hs) as Ew.
    assert (Et : v_thr (by_inner shuts u k i l' now w) = v_thr w) by (simpl; apply inner_thr).
    pose proof (inner_hand k w El) as Eh.
    destruct i as [x|[|n ns]| |x y| |];
      try (match goal with |- sub ?a ?b => replace a with b; [apply sub_refl|symmetry] end; apply (@hline_same w _ s t d); auto;
           match goal with |- v_from (by_inner _ _ _ ?i _ _ _) _ = _ =>
             simpl v_from; destruct (inner_from shuts k i w s) as [Q|[_ (ns' & Q)]]; [exact Q|discriminate] end).
    apply (@hline_take w _ s t n d); auto.
    + rewrite Ev. destruct (v_flag w); [apply sub_none|apply sub_refl].
    + intros ->. simpl in Ed |- *. destruct (closed s w) eqn:Q1.
      { left. pose proof (b_A Hb s) as A. rewrite Ew in A. simpl in A. rewrite sum_cons in A. simpl in A. rewrite Nat.eqb_refl in A. simpl in A.
        destruct (v_from w s); auto. simpl in A. destruct (v_used w s); simpl in A; lia. }
      destruct (v_flag w).
      { left. tellr. pose proof (b_A Hb s) as A. rewrite Ew in A. simpl in A. rewrite sum_cons in A. simpl in A. rewrite Nat.eqb_refl in A. simpl in A.
        destruct (v_from w s); auto. simpl in A. destruct (v_used w s); simpl in A; lia. }
      right. simpl. unfold upd. rewrite Nat.eqb_refl. split; auto. simpl in Ed. rewrite <- (app_nil_r (v_log w)) in Ed at 1. apply app_inv_head in Ed. auto.
    + intros Hn. simpl v_from. destruct (inner_from shuts k (INotes (n :: ns)) w s) as [Q|[_ (ns' & Q)]]; auto. congruence.
  - intros n El. destruct (now_logd shuts t n w) as (d & Ed & Ev).
    apply (@hline_take w _ s t n d); auto.
    + apply now_thr.
    + apply now_waits; auto.
    + rewrite Ev. apply sub_refl.
    + intros ->. simpl in *. unfold upd. rewrite Nat.eqb_refl. right. split; auto. rewrite <- (app_nil_r (v_log w)) in Ed at 1. apply app_inv_head in Ed. auto.
    + intros Hn. destruct n as [[]|x|x]; simpl; auto.
      * destruct (off_r shuts x w) as (_ & _ & -> & _). auto.
      * unfold upd. destruct (Nat.eqb_spec s x); auto. congruence.
  - intros l' now El. pose proof (panic_waits shuts El Hs) as Ew. unfold hline. apply sub_app; [apply sub_refl|]. apply sub_app.
    + apply sub_valn. unfold rest. change (v_from (by_panic u w)) with (v_from w).
      destruct (v_from w s).
      { rewrite Ew. rewrite <- (app_nil_r (wait (by_panic u w))) at 1. apply sub_app; [apply sub_refl|apply sub_none]. }
      destruct (add_dec s (wait (by_panic u w))) as [F|F]; [|apply sub_none].
      destruct (add_dec s (wait w)) as [G|G]; [|exfalso; apply G; rewrite Ew; apply in_or_app; auto].
      rewrite Ew, after_app by auto. rewrite <- (app_nil_r (after s _)) at 1. apply sub_app; [apply sub_refl|apply sub_none].
    + simpl. destruct (nth_set u t [] [] (v_thr w)) as [->| ->]; [apply sub_none|apply sub_refl].
  - intros El. match goal with |- sub ?a ?b => replace a with b; [apply sub_refl|symmetry] end.
    apply (@hline_same w _ s t []); auto; [symmetry; apply (unlock_waits w El)|simpl; rewrite app_nil_r; auto|unfold at_hand; simpl; rewrite El; auto].
Qed.
Lemma hline_run ts w s t : all_ok w -> sub (hline s t (run shuts ts w)) (hline s t w).
Proof.
  revert w. induction ts as [|a ts IH]; intros w H; [apply sub_refl|]. eapply sub_trans; [apply (IH (step w a)), all_step; auto|]. apply hline_step; auto.
Qed.

Lemma vals_end t (c : call) : ends c = true -> vals t [c] = [].
Proof. destruct c as [[]| | |]; simpl; auto. discriminate. Qed.
Theorem not_before progs ts1 ts2 s : let w1 := run shuts ts1 (start progs) in let w2 := run shuts ts2 w1 in
  v_used w1 s = false -> forall t, sub (vals t (d_told (v_dest w2 s))) (pending t w1).
Proof.
  intros w1 w2 Hu t. pose proof (all_reach shuts ts1 progs) as H1. fold w1 in H1.
  pose proof (all_run shuts ts2 H1) as H2. fold w2 in H2.
  pose proof (hline_run ts2 s t H1) as Q. fold w2 in Q.
  assert (Qw : hline s t w1 = pending t w1).
  { pose proof (b_A (a_base H1) s) as A. rewrite Hu in A. simpl in A.
    unfold hline, pending, tail_log, rest. destruct (v_from w1 s); [simpl in A; lia|].
    destruct (add_dec s (wait w1)) as [F|F].
    { apply sum_in with (f := nA s) in F. simpl in F. rewrite Nat.eqb_refl in F. simpl in F. lia. }
    destruct (at_hand w1); simpl; rewrite ?app_nil_r; auto. }
  rewrite <- Qw. eapply sub_trans; [|apply Q]. unfold hline. 
  destruct (told_log shuts s (a_base H2)) as [->|[(c & Hc & -> & _)|(i & F & x & y & e & E1 & E2 & E3 & _)]].
  - apply sub_none.
  - simpl d_told. rewrite vals_end by auto. apply sub_none.
  - unfold tail_log. rewrite F, E1, E2, !vals_app, <- app_assoc. apply sub_app; [apply sub_refl|].
    destruct E3 as [->|[-> _]]; apply sub_none.
Qed.
End Before.
