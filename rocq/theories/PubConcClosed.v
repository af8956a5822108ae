(** The publish subject used by several threads: once it is closed, no push that begins later is heard. *)
From Verif Require Import Base SubscrModel PubConcModel PubConcSpec PubConcProofs PubConcTold PubConcTable PubConcOrder PubConcArrive PubConcHear PubConcMain.
Set Implicit Arguments.

Section Closed.
Variables V E : Type.
Notation call := (ncall (item V) E).
Notation st := (st V E).
Notation note := (note V E).
Notation icmd := (icmd V E).
Notation cmd := (cmd V E).
Variable shuts : nat -> list call -> bool.
Notation step := (step shuts).
Notation inner := (inner shuts).
Notation outer := (outer shuts).
Notation do_now := (do_now shuts).

Definition trying (l : list cmd) : list V :=
  flat_map (fun c => match c with KTry (NCall (Nxt (_, v))) | KDefer (NCall (Nxt (_, v))) => [v] | _ => [] end) l.
Lemma trying_app a b : trying (a ++ b) = trying a ++ trying b.
Proof. apply flat_map_app. Qed.
Lemma unbegun_app (a b : list cmd) : unbegun (a ++ b) = unbegun a ++ unbegun b.
Proof. apply flat_map_app. Qed.
Lemma quiet_trying cs : Forall (@quiet V E) cs -> trying cs = [].
Proof. induction 1 as [|c cs Hc H IH]; auto. simpl. rewrite IH. destruct c as [[]| | | | | | | | | | |n|n| |]; auto; destruct Hc. Qed.
(** What thread [t] has sent off. *)
Definition sent (t : nat) (w : st) : list V := vals t (v_log w) ++ valn t (wait w) ++ trying (nth t (v_thr w) []).
Definition lets (w : st) (c : cmd) : list V := match c with KNext _ v => if is_closed w then [] else [v] | _ => [] end.

Lemma trying_outer u c w : own_k u c ->
  match c with
  | KTry n => True
  | KDefer n => fst (outer u c w) = []
  | _ => trying (fst (outer u c w)) = lets w c
  end /\ (unbegun (fst (outer u c w)) = unbegun [c] /\ (forall v, c <> KNext _ v) \/ exists v, c = KNext _ v /\ unbegun (fst (outer u c w)) = []).
Proof.
  intros H. destruct c as [[]| | | | | | | | | | |n|n| |]; simpl; unfold defer; cases; auto;
    (split; [auto|]); try (left; split; [auto|discriminate]); right; eauto.
Qed.

Lemma sent_step w u k t : all_ok w -> exists x,
  sub (sent t (step w (u, k))) (sent t w ++ x) /\
  (x = [] \/ is_closed w = false /\ exists v cs, u = t /\ x = [v] /\ nth t (v_thr w) [] = KNext _ v :: cs /\
    unbegun (nth t (v_thr (step w (u, k))) []) = unbegun cs).
Proof.
  intros Hall. pose proof (b_shape (a_base Hall)) as Hs. pose proof (a_own Hall) as Ho.
  apply (@step_cases V E shuts (fun w' => exists x, sub (sent t w') (sent t w ++ x) /\
    (x = [] \/ is_closed w = false /\ exists v cs, u = t /\ x = [v] /\ nth t (v_thr w) [] = KNext _ v :: cs /\
      unbegun (nth t (v_thr w') []) = unbegun cs))).
  - exists []. rewrite app_nil_r. split; auto. apply sub_refl.
  - intros c cs En Hl. pose proof (ow_k Ho u) as Hu. rewrite En in Hu. inversion Hu as [|? ? H1 H2]; subst.
    assert (El : v_log (by_outer shuts u c cs w) = v_log w) by apply (outer_table shuts u c w).
    assert (Hins : forall n a b, c = KDefer n -> wait w = a ++ b -> wait (by_outer shuts u c cs w) = a ++ n :: b ->
      (b = [] \/ exists t' l n', v_lock w = Held t' l (Some n') /\ b = [n']) -> 
      valn t (wait (by_outer shuts u c cs w)) = valn t (wait w) ++ (if u =? t then val_n t n else [])).
    { intros n a b -> E1 E2 Hb. rewrite E1, E2. change (n :: b) with ([n] ++ b). rewrite !valn_app, <- app_assoc. f_equal. simpl in H1.
      simpl valn at 1. rewrite app_nil_r. destruct (Nat.eqb_spec u t) as [<-|Hn].
      - assert (Q : valn u b = []).
        { destruct Hb as [->|(t' & l & n' & Elk & ->)]; auto. simpl. rewrite app_nil_r. apply (@own_other V E u t').
          - apply (ow_now Ho Elk).
          - intros ->. apply (Hl _ _ Elk). }
        rewrite Q, app_nil_r. auto.
      - rewrite (@own_other V E t u n H1 Hn), app_nil_r. auto. }
    destruct (Nat.eq_dec u t) as [<-|Hn].
    + assert (Et : nth u (v_thr (by_outer shuts u c cs w)) [] = fst (outer u c w) ++ cs).
      { simpl. apply nth_set_same. apply nth_cons_lt in En; auto. }
      exists (lets w c). split.
      2:{ rewrite Et, unbegun_app. destruct c as [[]| | | | | | | | | | |n|n| |]; auto. simpl. destruct (is_closed w); auto. right. split; auto. exists v, cs. auto. }
      unfold sent. rewrite El.
      rewrite En.
      rewrite Et, trying_app.
      assert (Hq : trying cs = []) by (pose proof (ca_stack (a_carry Hall) u) as Q; rewrite En in Q; apply quiet_trying, Q).
      rewrite Hq. change (trying (c :: cs)) with (trying ([c] ++ cs)). rewrite trying_app, Hq, !app_nil_r.
      pose proof (proj1 (trying_outer u c w H1)) as HV.
      destruct (outer_wait shuts u c cs w) as [(E1 & E2 & E3)|[(n & -> & E2 & E1)|(n & a & b & -> & Ef & Ea & Eb & Hb)]].
      * rewrite E1, <- !app_assoc. apply sub_app; [apply sub_refl|]. apply sub_app; [apply sub_refl|].
        destruct c as [[]| | | | | | | | | | |n|n| |]; try (rewrite HV; simpl; apply sub_refl).
        -- specialize (E2 n eq_refl). simpl. destruct (v_lock w); try congruence; simpl; rewrite ?app_nil_r; apply sub_refl.
        -- rewrite HV. apply sub_none.
      * rewrite E1, valn_app. simpl. rewrite E2. simpl. rewrite !app_nil_r. simpl in H1.
        rewrite (@own_same V E u n H1). apply sub_refl.
      * rewrite (Hins n a b eq_refl Ea Eb Hb), Nat.eqb_refl, HV. simpl. rewrite !app_nil_r. simpl in H1.
        rewrite (@own_same V E u n H1). apply sub_refl.
    + exists []. split; auto. rewrite app_nil_r. unfold sent. rewrite El.
      assert (Et : nth t (v_thr (by_outer shuts u c cs w)) [] = nth t (v_thr w) []) by (simpl; apply nth_set_other; auto).
      rewrite Et. apply Nat.eqb_neq in Hn as Hn'.
      assert (Ew : valn t (wait (by_outer shuts u c cs w)) = valn t (wait w)).
      { destruct (outer_wait shuts u c cs w) as [(E1 & E2 & E3)|[(n & -> & E2 & E1)|(n & a & b & Ec & Ef & Ea & Eb & Hb)]].
        - rewrite E1. auto.
        - rewrite E1, valn_app. simpl. simpl in H1. rewrite (@own_other V E t u n H1 Hn), !app_nil_r. auto.
        - rewrite (Hins n a b Ec Ea Eb Hb), Hn', app_nil_r. auto. }
      rewrite Ew. apply sub_refl.
  - intros i l' now El _. exists []. split; auto. rewrite app_nil_r. unfold sent. change (v_log (by_inner shuts u k i l' now w)) with (v_log (snd (inner k i w))).
    rewrite (inner_log shuts t k i w). rewrite (inner_waits shuts k El Hs), valn_app. simpl v_thr. rewrite inner_thr, <- !app_assoc.
    apply sub_app; [apply sub_refl|]. rewrite !app_assoc. apply sub_app; [|apply sub_refl]. apply sub_app; [|apply sub_refl].
    destruct i as [|[|n ns]| | | |]; simpl; try apply sub_none. rewrite app_nil_r. destruct (v_flag w); [apply sub_none|apply sub_refl].
  - intros n El. exists []. split; auto. rewrite app_nil_r. unfold sent. change (v_log (by_now shuts u n w)) with (v_log (snd (do_now n w))).
    rewrite (now_log shuts t n w), (now_waits shuts w El). simpl v_thr. rewrite now_thr. simpl. rewrite <- !app_assoc. apply sub_refl.
  - intros l' now El. exists []. split; auto. rewrite app_nil_r. unfold sent. rewrite (panic_waits shuts El Hs), valn_app. change (v_log (by_panic u w)) with (v_log w).
    apply sub_app; [apply sub_refl|]. rewrite <- app_assoc. apply sub_app; [apply sub_refl|].
    apply (@sub_app _ [] _). { apply sub_none. }
    simpl. destruct (nth_set u t [] [] (v_thr w)) as [->| ->]; [apply sub_none|apply sub_refl].
  - intros El. exists []. split; auto. rewrite app_nil_r. unfold sent. rewrite (unlock_waits w El). apply sub_refl.
Qed.
Lemma sub_app_nil X (a b c : list X) : sub a b -> sub a (b ++ c).
Proof. intros H. rewrite <- (app_nil_r a). apply sub_app; auto. apply sub_none. Qed.

(** What was sent off is among what was begun. *)
Definition begun_ok (progs : list (list (op V E))) (w : st) : Prop := forall t, exists p,
  pushes (nth t progs []) = p ++ unbegun (nth t (v_thr w) []) /\ sub (sent t w) p.
Lemma unbegun_step w u k t : shape_ok w -> unbegun (nth t (v_thr (step w (u, k))) []) = [] \/
  unbegun (nth t (v_thr (step w (u, k))) []) = unbegun (nth t (v_thr w) []) \/
  exists v cs, u = t /\ nth t (v_thr w) [] = KNext _ v :: cs /\ unbegun (nth t (v_thr (step w (u, k))) []) = unbegun cs.
Proof.
  intros Hs. apply (@step_cases V E shuts (fun w' => unbegun (nth t (v_thr w') []) = [] \/
    unbegun (nth t (v_thr w') []) = unbegun (nth t (v_thr w) []) \/
    exists v cs, u = t /\ nth t (v_thr w) [] = KNext _ v :: cs /\ unbegun (nth t (v_thr w') []) = unbegun cs)).
  - auto.
  - intros c cs En Hl. right. destruct (Nat.eq_dec u t) as [<-|Hn].
    + assert (Et : nth u (v_thr (by_outer shuts u c cs w)) [] = fst (outer u c w) ++ cs).
      { simpl. apply nth_set_same. apply nth_cons_lt in En; auto. }
      rewrite Et, En, unbegun_app. change (unbegun (c :: cs)) with (unbegun ([c] ++ cs)). rewrite unbegun_app.
      destruct c as [[]| | | | | | | | | | |n|n| |]; simpl; unfold defer; cases; auto; right; exists v, cs; auto.
    + left. simpl. rewrite nth_set_other by auto. auto.
  - intros i l' now El _. right. left. simpl. rewrite inner_thr. auto.
  - intros n El. right. left. simpl. rewrite now_thr. auto.
  - intros l' now El. simpl. destruct (nth_set u t [] [] (v_thr w)) as [->| ->]; auto.
  - intros El. auto.
Qed.
Lemma begun_step progs w tk : all_ok w -> begun_ok progs w -> begun_ok progs (step w tk).
Proof.
  intros Hall H t. destruct tk as [u k]. destruct (H t) as (p & Ep & Sp).
  destruct (sent_step u k t Hall) as (x & Hx & Hc).
  assert (Hx' : sub (sent t (step w (u, k))) (p ++ x)) by (eapply sub_trans; [exact Hx|]; apply sub_app; [auto|apply sub_refl]).
  destruct (unbegun_step u k t (b_shape (a_base Hall))) as [Q|[Q|(v & cs & -> & E1 & Q)]]; rewrite Q.
  - exists (pushes (nth t progs [])). rewrite app_nil_r. split; auto. rewrite Ep.
    destruct Hc as [->|(_ & v & cs & -> & -> & E1 & _)].
    + rewrite app_nil_r in Hx'. apply sub_app_nil; auto.
    + rewrite E1. simpl. eapply sub_trans; [exact Hx'|]. apply sub_app; [apply sub_refl|]. apply sub_keep, sub_none.
  - exists p. split; auto. destruct Hc as [->|(Hcl & v & cs & -> & -> & E1 & E2)]; [rewrite app_nil_r in Hx'; auto|].
    exfalso. rewrite E1, E2 in Q. apply (f_equal (@length V)) in Q. simpl in Q. lia.
  - exists (p ++ [v]). rewrite Ep, E1, <- app_assoc. split; auto.
    destruct Hc as [->|(_ & v' & cs' & _ & -> & E2 & _)]; [rewrite app_nil_r in Hx'; apply sub_app_nil; auto|].
    rewrite E1 in E2. injection E2 as <- <-. auto.
Qed.
Lemma begun_run progs ts w : all_ok w -> begun_ok progs w -> begun_ok progs (run shuts ts w).
Proof. revert w. induction ts; simpl; auto. intros w Ha H. apply IHts; [apply all_step|apply begun_step]; auto. Qed.
Lemma begun_start progs : begun_ok progs (start progs).
Proof.
  intros t. exists []. simpl. split.
  - change (@nil cmd) with (map (@KOp V E) []). rewrite map_nth. generalize (nth t progs []). intros p.
    unfold unbegun, pushes. induction p as [|[] p IH]; simpl; auto. f_equal. auto.
  - unfold sent. simpl. change (@nil cmd) with (map (@KOp V E) []). rewrite map_nth. generalize (nth t progs []). intros p.
    replace (trying (map (KOp (E:=E)) p)) with (@nil V); [constructor|]. induction p; simpl; auto.
Qed.
Lemma sent_closed ts w t : all_ok w -> is_closed w = true -> sub (sent t (run shuts ts w)) (sent t w).
Proof.
  revert w. induction ts as [|[u k] ts IH]; intros w Ha Hc; [apply sub_refl|].
  eapply sub_trans; [apply (IH (step w (u, k))); [apply all_step; auto|apply isc_step; auto]|].
  destruct (sent_step u k t Ha) as (x & Hx & [->|(F & _)]); [rewrite app_nil_r in Hx; exact Hx|congruence].
Qed.
Lemma told_sent w s t : all_ok w -> sub (vals t (d_told (v_dest w s))) (sent t w).
Proof.
  intros H. destruct (told_log shuts s (a_base H)) as [->|[(c & Hc & -> & _)|(i & F & x & y & e & E1 & E2 & E3 & _)]].
  - apply sub_none.
  - simpl d_told. replace (vals t [c]) with (@nil V); [apply sub_none|]. destruct c as [[]| | |]; auto. discriminate.
  - unfold sent. apply sub_app_nil. rewrite <- (firstn_skipn i (v_log w)), E1, E2, !vals_app.
    change (vals t x ++ vals t e) with ([] ++ vals t x ++ vals t e). apply sub_app; [apply sub_none|]. apply sub_app; [apply sub_refl|].
    destruct E3 as [->|[-> _]]; apply sub_none.
Qed.
Theorem closed_for_good progs ts1 ts2 s : let w1 := run shuts ts1 (start progs) in let w2 := run shuts ts2 w1 in
  is_closed w1 = true -> forall t, exists p,
    pushes (nth t progs []) = p ++ unbegun (nth t (v_thr w1) []) /\ sub (vals t (d_told (v_dest w2 s))) p.
Proof.
  intros w1 w2 Hc t. pose proof (all_reach shuts ts1 progs) as H1. fold w1 in H1.
  pose proof (all_run shuts ts2 H1) as H2. fold w2 in H2.
  destruct (@begun_run progs ts1 (start progs) (all_start shuts progs) (begun_start progs) t) as (p & Ep & Sp). fold w1 in Ep, Sp.
  exists p. split; auto. eapply sub_trans; [apply told_sent, H2|]. eapply sub_trans; [|exact Sp]. apply sent_closed; auto.
Qed.
End Closed.
