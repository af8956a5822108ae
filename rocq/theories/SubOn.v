(** subscribe_on. *)
From Verif Require Import Base SubscrModel SchedModel SchedProofs SchedExec TimeModel TimeLift TimeSpec TimeProofs
  SubOnModel SubOnSpec.
Set Implicit Arguments.

Section SubOn.
Variables A E X : Type.
Variable d : nat.
Variable src : list (ncall A E).
Variable down : list (ncall A E) -> bool * list (req X).
Variable user : X -> nat -> list (tev A A E) -> X * bool * list (cmd A E X).
Notation O := unit.
Notation ev := (tev A A E).
Notation W := (world A A E bool O X).
Notation K := (clo O X).
Notation T := (subscribe_on X d src).
Notation core := (core down (subscribed_on down d) (@passed_on A E)).

Lemma subs_snoc (l : list ev) e : subs (l ++ [e]) = match e with XSub => S (subs l) | _ => subs l end.
Proof. unfold subs. rewrite fold_left_app. destruct e; reflexivity. Qed.
Lemma said_app (l l' : list ev) : said (l ++ l') = said l ++ said l'.
Proof. apply flat_map_app. Qed.

Notation quiet := (@quiet A E).
(** What the source says when subscribed to. *)
Definition at_once (tr : list ev) : Prop := forall p s, tr = p ++ XSub :: s -> since p <> None ->
  exists s1 s2, s = s1 ++ s2 /\ said s1 = to_end src /\ Forall quiet s1.

Lemma at_once_snoc tr e : at_once tr -> e <> XSub \/ since tr = None -> at_once (tr ++ [e]).
Proof.
  intros H Hn p s Hp Hs. destruct s as [|z s] using rev_ind.
  - apply app_inj_tail in Hp. destruct Hp as [<- ->]. destruct Hn; congruence.
  - rewrite app_comm_cons, app_assoc in Hp. apply app_inj_tail in Hp. destruct Hp as [Hp <-].
    destruct (H _ _ Hp Hs) as (s1 & s2 & -> & Q1 & Q2). exists s1, (s2 ++ [e]). rewrite app_assoc. auto.
Qed.
Lemma at_once_new tr s1 : at_once tr -> said s1 = to_end src -> Forall quiet s1 -> at_once ((tr ++ [XSub]) ++ s1).
Proof.
  intros H1 H2 H3 p s Hp Hs. rewrite <- app_assoc in Hp. cbn [app] in Hp.
  revert tr p H1 Hs Hp.
  assert (G : forall (tr : list ev) p, tr ++ XSub :: s1 = p ++ XSub :: s -> (tr = p /\ s1 = s) \/ exists t2, tr = p ++ XSub :: t2 /\ s = t2 ++ XSub :: s1).
  { induction tr as [|e tr IH]; intros [|f p] Hp; cbn [app] in Hp.
    - injection Hp as ->. auto.
    - injection Hp as <- Hp. exfalso. rewrite Hp in H3. apply Forall_app in H3. destruct H3 as [_ H3]. inversion H3; subst. auto.
    - injection Hp as -> <-. right. exists tr. auto.
    - injection Hp as -> Hp. destruct (IH _ Hp) as [[-> ->]|(t2 & -> & ->)]; auto. right. exists t2. auto. }
  intros tr p H1 Hs Hp. destruct (G _ _ Hp) as [[-> ->]|(t2 & -> & ->)].
  - exists s, []. rewrite app_nil_r. auto.
  - destruct (H1 _ _ eq_refl Hs) as (a & b & -> & Q1 & Q2). exists a, (b ++ XSub :: s1). rewrite app_assoc. auto.
Qed.

Lemma quiet_subs os (l : list ev) : Forall quiet os -> subs (l ++ os) = subs l.
Proof.
  revert l. induction os as [|e os IH]; intros l F; [rewrite app_nil_r; auto|]. inversion F; subst.
  rewrite (app_assoc l [e] os : l ++ e :: os = _), IH, subs_snoc by auto. destruct e; auto; destruct H1.
Qed.
Lemma quiet_since os (l : list ev) : Forall quiet os -> since (l ++ os) = since l.
Proof.
  revert l. induction os as [|e os IH]; intros l F; [rewrite app_nil_r; auto|]. inversion F; subst.
  rewrite (app_assoc l [e] os : l ++ e :: os = _), IH, since_snoc by auto. destruct e; auto; destruct H1.
Qed.
Lemma at_once_quiet os (l : list ev) : Forall quiet os -> at_once l -> at_once (l ++ os).
Proof.
  revert l. induction os as [|e os IH]; intros l F Hl; [rewrite app_nil_r; auto|]. inversion F; subst.
  rewrite (app_assoc l [e] os : l ++ e :: os = _). apply IH; auto. apply at_once_snoc; auto. left. destruct e; try destruct H1; discriminate.
Qed.

Definition shape (w : work K) : Prop := exists on cur, w = WDelayed on cur d (Some (KO Datatypes.tt)).
Definition mine (ph : option nat) (now : nat) (tr : list ev) (b : bool) (w : work K) : Prop :=
  exists s cur, w = WDelayed s cur d (Some (KO Datatypes.tt)) /\ since tr = Some s /\
  match ph with Some t => Nat.max cur t = now | None => cur = now end /\ (b = true -> cur = now /\ now < s + d).

Definition live ph now l q (w : W) : Prop :=
  if w_st w then l = [] /\ q = [] else if w_born w then one (mine ph now (w_tr w)) l q else l = [] /\ q = [].

Record counts (w : W) : Prop := mkCounts {
  k_subs : subs (w_tr w) = (if w_born w then 1 else 0) + (if w_st w then 1 else 0);
  k_since : since (w_tr w) = None <-> w_born w = false;
  k_born : w_st w = true -> w_born w = true;
  k_once : at_once (w_tr w)
}.
Definition P ph now l q (w : W) : Prop :=
  core ph now (w_tr w) (w_shut w) /\ shaped shape l q /\ counts w /\ (w_shut w = false -> live ph now l q w).

Lemma Hclear ph now l q (w : W) : P ph now l q w <-> P ph now l q (clear w).
Proof. unfold P. split; intros (H1 & H2 & [K1 K2 K3 K4] & H3); (split; [auto|split; [auto|split; [split; auto|auto]]]). Qed.

Lemma vr_del now : vr now [QSched 0 (KDelayed d) (KO Datatypes.tt)] = [QS (O:=O) (X:=X) (WDelayed now now d (Some (KO Datatypes.tt)))].
Proof. unfold vr. cbn [flat_map new_work hook app]. rewrite ?later_max. reflexivity. Qed.

Lemma counts_step (w w' : W) e : counts w -> w_st w' = w_st w -> w_born w' = w_born w -> w_tr w' = w_tr w ++ [e] -> e <> XSub -> counts w'.
Proof.
  intros [K1 K2 K3 K4] H1 H2 H3 He. split; rewrite ?H1, ?H2, ?H3; auto.
  - rewrite subs_snoc. destruct e; auto; congruence.
  - rewrite since_snoc. destruct e; auto; congruence.
  - apply at_once_snoc; auto.
Qed.
Lemma counts_same (w w' : W) : counts w -> w_st w' = w_st w -> w_born w' = w_born w -> w_tr w' = w_tr w -> counts w'.
Proof. intros [K1 K2 K3 K4] H1 H2 H3. split; rewrite ?H1, ?H2, ?H3; auto. Qed.

Lemma mine_same ph now tr e b w : match e with XEnd | XUp _ | XOut _ => True | _ => False end -> mine ph now tr b w -> mine ph now (tr ++ [e]) b w.
Proof. unfold mine. intros He (s & cur & H1 & H2 & H3). exists s, cur. destruct e; try destruct He; snocs; auto. Qed.

(** Something is said and passed on. *)
Lemma said_core ph now tr sh c rs0 st0 born0 over0 pan0 :
  core ph now tr sh -> (2 <= subs tr \/ c = Uns) ->
  let w' := tell true down c (mkW st0 born0 sh over0 pan0 (tr ++ [XUp c]) rs0 : W) in
  exists rs outs', w_tr w' = (tr ++ [XUp c]) ++ outs' /\ said outs' = [] /\ Forall quiet outs' /\
    w_rs w' = rs0 ++ rs /\ Forall (@rq_ok O X) rs /\
    vr now rs = (if w_shut w' && negb sh then [QC O X] else []) /\ (sh = true -> w_shut w' = true) /\
    core ph now (w_tr w') (w_shut w') /\ w_st w' = st0 /\ w_born w' = born0 /\ w_over w' = over0 /\ w_panic w' = pan0 /\
    (w_shut w' = false -> rs = [] \/ vr now rs = []).
Proof.
  intros HC Hc w'. unfold w'. destruct sh.
  - rewrite tell_shut by auto. exists [], []. rewrite !app_nil_r. cbn [w_tr w_rs w_shut w_st w_born w_over w_panic andb negb].
    repeat (split; [solve [auto | apply core_note; simpl; auto]|]). auto.
  - destruct (@tell_open A A E bool O X true down c (mkW st0 born0 false over0 pan0 (tr ++ [XUp c]) rs0)) as (rs & -> & R1 & R2); [auto|].
    cbn [w_tr w_rs w_shut w_st w_born w_over w_panic] in *. exists rs, [XOut c].
    split; [auto|]. split; [auto|]. split; [repeat constructor|]. split; [auto|]. split; [auto|].
    split. { rewrite R2. rewrite !andb_true_r. reflexivity. } split; [discriminate|]. split; [|auto 10].
    + apply (@core_ans A A E X down _ (@passed_on A E)); [exact HC|exact I| | |right; reflexivity].
      * split; [rewrite open_same by discriminate; apply (core_isopen HC); auto|]. split; [unfold last_is; eauto|].
        unfold source_subscribed. rewrite subs_snoc. auto.
      * destruct Hc as [Hc|Hc]; [apply Nat.leb_le in Hc|subst c; auto]. destruct c; cbn [passed_on]; rewrite ?Hc; reflexivity.
    + split; [auto|]. split; [auto|]. split; [auto|]. split; [auto|]. intros Hcl. right. rewrite R2, Hcl. auto.
Qed.

Lemma Hcmd ph now l q (w : W) c : is_up c -> Forall (@rq_ok O X) (w_rs w) ->
  P ph now l (q ++ vr now (w_rs w)) w ->
  Forall (@rq_ok O X) (w_rs (do_cmd T down w c)) /\
  P ph now l (q ++ vr now (w_rs (do_cmd T down w c))) (do_cmd T down w c).
Proof.
  intros Hc F HP. pose proof HP as (HC & HSh & HK & HL). destruct c as [|c|r]; [| |destruct Hc].
  - cbn [do_cmd]. destruct (w_born w) eqn:Hb; [split; [auto|split; auto]|].
    pose proof HK as [K1 K2 K3 K4].
    assert (Hst : w_st w = false) by (destruct (w_st w); auto; rewrite K3 in Hb; auto).
    unfold P. cbn [subscribe_on t_sub]. wcbn. split. { rqs. }
    rewrite vr_app, app_assoc, vr_del. split; [|split; [|split]].
    + apply core_note; simpl; auto. left. apply K2; auto.
    + apply shaped_more; auto. repeat constructor. exists now, now. auto.
    + rewrite Hb, Hst in *. split; wcbn; rewrite ?Hst.
      * rewrite subs_snoc, K1. reflexivity.
      * rewrite since_snoc. destruct (since (w_tr w)); split; discriminate.
      * discriminate.
      * apply at_once_snoc; auto. right. apply K2. auto.
    + intros Hs. specialize (HL Hs). unfold live in *. wcbn. rewrite Hb, Hst in *. destruct HL as [-> ->].
      constructor. exists now, now. split; auto. rewrite since_snoc, (proj2 K2 eq_refl), (c_clock HC). split; auto. split; [|discriminate].
      destruct ph; auto. rewrite <- (c_clock HC). assert (H := c_t HC). cbn in H. lia.
  - cbn [do_cmd]. unfold up. destruct (w_born w) eqn:Hb; [|split; [auto|split; auto]]. cbn [negb].
    pose proof HK as [K1 K2 K3 K4].
    assert (G : forall over', (w_st w = true \/ c = Uns) ->
      let w' := tell true down c (mkW (w_st w) true (w_shut w) over' (w_panic w) (w_tr w ++ [XUp c]) (w_rs w)) in
      Forall (@rq_ok O X) (w_rs w') /\ P ph now l (q ++ vr now (w_rs w')) w').
    { intros over' Hst w'.
      destruct (@said_core ph now (w_tr w) (w_shut w) c (w_rs w) (w_st w) true over' (w_panic w) HC) as (rs & os & T1 & T2 & T3 & T4 & T5 & T6 & T7 & T8 & T9 & T10 & T11 & T12 & T13).
      { destruct Hst as [Hst|Hst]; auto. left. rewrite K1, Hb, Hst. auto. }
      fold w' in T1, T4, T6, T7, T8, T9, T10, T11, T12, T13. rewrite T4. split; [apply Forall_app; auto|].
      rewrite vr_app, app_assoc. split; [auto|]. split; [|split].
      - apply shaped_more; auto. rewrite T6. destruct (w_shut w' && negb (w_shut w)); repeat constructor.
      - split; rewrite ?T9, ?T10, ?T1.
        + rewrite quiet_subs, subs_snoc, K1, Hb by auto. reflexivity.
        + rewrite quiet_since, since_snoc by auto. rewrite K2, Hb. split; auto.
        + auto.
        + apply at_once_quiet; auto. apply at_once_snoc; auto. left; discriminate.
      - intros Hs'. assert (Hs : w_shut w = false) by (destruct (w_shut w); auto; rewrite T7 in Hs'; auto).
        rewrite T6, Hs', Hs. cbn [andb negb]. rewrite app_nil_r. specialize (HL Hs). unfold live in *. rewrite T9, T10. rewrite Hb in HL.
        destruct (w_st w); auto. rewrite T1. refine (one_imp _ _ HL). intros b wk Hm.
        clear -T3 Hm. apply (@mine_same _ _ _ (XUp c)) in Hm; [|simpl; auto]. revert Hm. generalize (w_tr w ++ [XUp c]).
        induction os as [|e os IH]; intros l Hl; [rewrite app_nil_r; auto|]. inversion T3; subst.
        rewrite (app_assoc l [e] os : l ++ e :: os = _). apply IH; auto. apply mine_same; auto. destruct e; auto. }
    assert (N : forall over', w_st w = false -> c <> Uns -> let w' := mkW (w_st w) true (w_shut w) over' (w_panic w) (w_tr w ++ [XUp c]) (w_rs w) in
      Forall (@rq_ok O X) (w_rs w') /\ P ph now l (q ++ vr now (w_rs w')) w').
    { intros over' Hst Hcn w'. split; [exact F|]. unfold w', P. wcbn. split; [|split; [auto|split]].
      - apply core_note; simpl; auto. right. destruct c; try congruence; cbn [passed_on]; rewrite K1, Hb, Hst; reflexivity.
      - apply (@counts_step w _ (XUp c)); auto; discriminate.
      - intros Hs. specialize (HL Hs). unfold live in *. wcbn. rewrite Hst, Hb in *. refine (one_imp _ _ HL). intros b wk Hm.
        apply mine_same; simpl; auto. }
    destruct c as [a|x| |]; try (destruct (w_over w) eqn:Hov; [split; [exact F|exact HP]; fail|]); cbn [subscribe_on t_up t_torn]; unfold note, set_over; wcbn; rewrite Hb.
    1, 2, 3: destruct (w_st w) eqn:Hst; [apply G; auto|apply N; auto; discriminate].
    apply G; auto.
Qed.

Lemma calls_ok ph now : forall cs (w : W), w_st w = true -> 2 <= subs (w_tr w) ->
  core ph now (w_tr w) (w_shut w) -> Forall (@rq_ok O X) (w_rs w) ->
  Forall (fun x => x = QC O X) (vr now (w_rs w)) -> (w_shut w = false -> vr now (w_rs w) = []) ->
  let w' := fold_left (source_call (tell true down)) cs w in
  exists s1, w_tr w' = w_tr w ++ s1 /\ said s1 = (if w_over w then [] else to_end cs) /\ Forall quiet s1 /\
    w_st w' = true /\ w_born w' = w_born w /\ core ph now (w_tr w') (w_shut w') /\ Forall (@rq_ok O X) (w_rs w') /\
    Forall (fun x => x = QC O X) (vr now (w_rs w')) /\ (w_shut w' = false -> vr now (w_rs w') = []).
Proof.
  induction cs as [|c cs IH]; intros w Hst Hsub HC F V1 V2; cbn [fold_left].
  - exists []. rewrite app_nil_r. destruct (w_over w); cbn; auto 12.
  - destruct (w_over w) eqn:Hov.
    + replace (source_call (tell true down) w c) with w by (unfold source_call; rewrite Hov; reflexivity).
      destruct (IH w Hst Hsub HC F V1 V2) as (s1 & T1 & T2 & T3). rewrite Hov in T2. exists s1. auto.
    + set (over' := match c with Nxt _ => false | _ => true end).
      replace (source_call (tell true down) w c)
        with (tell true down c (mkW (w_st w) (w_born w) (w_shut w) over' (w_panic w) (w_tr w ++ [XUp c]) (w_rs w))) by
        (unfold source_call; rewrite Hov; destruct c; unfold over', note, set_over; wcbn; rewrite ?Hov; reflexivity).
      destruct (@said_core ph now (w_tr w) (w_shut w) c (w_rs w) (w_st w) (w_born w) over' (w_panic w) HC (or_introl Hsub)) as
        (rs & os & T1 & T2 & T3 & T4 & T5 & T6 & T7 & T8 & T9 & T10 & T11 & T12 & T13).
      set (w1 := tell true down c _) in *.
      destruct (IH w1) as (s1 & U1 & U2 & U3 & U4 & U5 & U6 & U7 & U8 & U9).
      * rewrite T9; auto.
      * rewrite T1, quiet_subs, subs_snoc by auto. auto.
      * auto.
      * rewrite T4. apply Forall_app; auto.
      * rewrite T4, vr_app. apply Forall_app. split; auto. rewrite T6. destruct (w_shut w1 && negb (w_shut w)); repeat constructor.
      * intros Hs1. assert (Hs : w_shut w = false) by (destruct (w_shut w); auto; rewrite T7 in Hs1; auto).
        rewrite T4, vr_app, T6, Hs1, V2; auto.
      * exists ((XUp c :: os) ++ s1).
        split; [rewrite U1, T1, <- !app_assoc; reflexivity|]. split.
        { cbn [said flat_map app] in *. fold (said (os ++ s1)). rewrite said_app, T2, U2, T11. unfold over'. destruct c; reflexivity. }
        split. { constructor; [simpl; auto|]. apply Forall_app; auto. }
        split; [auto|]. split; [rewrite U5; auto|]. auto.
Qed.

Lemma QC_shaped (q : list (qop O X)) : Forall (fun x => x = QC O X) q ->
  Forall (fun x : qop O X => match x with QS w => shape w | QC _ _ => True end) q.
Proof. intros H. refine (Forall_impl _ _ H). intros x ->. auto. Qed.

Lemma Hrun fuel t now l1 wk l2 q (w : W) wk' r w' rs :
  P (Some t) now (l1 ++ (false, wk) :: l2) q w -> Forall (fun x => fst x = true) l1 -> owned wk = true ->
  wtick (run T down user) fuel wk t w = Some (wk', r, w', rs) ->
  Forall (@rq_ok O X) rs /\
  P (Some t) now (l1 ++ (if r then [] else [(true, wk')]) ++ l2) (q ++ vr now rs) w'.
Proof.
  intros (HC & Sh & HK & HL) _ _. destruct (shaped_run _ _ _ Sh) as [(on & cur & ->) Sh'].
  cbn [wtick]. destruct (on + d <=? Nat.max cur t) eqn:Hd.
  2: { intros Y; injection Y as <- <- <- <-. split; auto. cbn [vr flat_map]. rewrite app_nil_r.
    split; [auto|]. split; [apply (Sh' false); unfold shape; eauto|]. split; [auto|]. intros Hs. specialize (HL Hs). unfold live in *.
    destruct (w_st w); [destruct HL as [HL _]; destruct l1; discriminate|].
    destruct (w_born w); [|destruct HL as [HL _]; destruct l1; discriminate].
    apply one_run in HL. destruct HL as (-> & -> & -> & s & cur' & E1 & E2 & E3 & E4). injection E1 as <- <-.
    constructor. exists on, (Nat.max cur t). apply Nat.leb_gt in Hd. split; auto. split; auto. split; [lia|intros _; lia]. }
  cbn [run subscribe_on t_run t_torn]. wcbn. specialize (Sh' true (WDelayed on cur d (Some (KO Datatypes.tt)))). cbn [app] in Sh'.
  intros Y; injection Y as <- <- <- <-. cbn [app].
  destruct (w_shut w) eqn:Hs.
  { wcbn. split; auto. cbn [vr flat_map]. rewrite app_nil_r. unfold P. wcbn. rewrite Hs.
    split; [auto|]. split; [apply Sh'; unfold shape; eauto|]. split; [|discriminate]. apply (@counts_same w); auto. }
  specialize (HL eq_refl). unfold live in HL. pose proof HK as [K1 K2 K3 K4].
  destruct (w_st w) eqn:Hst; [destruct HL as [HL _]; destruct l1; discriminate|].
  destruct (w_born w) eqn:Hb; [|destruct HL as [HL _]; destruct l1; discriminate].
  apply one_run in HL. destruct HL as (-> & -> & -> & s & cur' & E1 & E2 & E3 & E4). injection E1 as <- <-.
  cbn [app] in *.
  destruct (@calls_ok (Some t) now src (open_source (clear w))) as (s1 & T1 & T2 & T3 & T4 & T5 & T6 & T7 & T8 & T9);
    unfold open_source; wcbn.
  - auto.
  - rewrite subs_snoc, K1. auto.
  - rewrite Hs. apply core_note; simpl; auto. right. split; [rewrite K1; auto|]. split; [apply (c_tick HC)|].
    split; [apply (core_isopen HC); auto|]. exists on. split; auto. apply Nat.leb_le in Hd. rewrite <- (c_clock HC), <- E3. auto.
  - constructor.
  - constructor.
  - auto.
  - unfold open_source in T1, T2, T4, T5, T6, T7, T8, T9. revert T1 T2 T4 T5 T6 T7 T8 T9. wcbn. intros.
    set (w1 := fold_left _ _ _) in *. split; [auto|]. split; [auto|]. split; [|split].
    + split; [constructor|]. apply QC_shaped; auto.
    + split; rewrite ?T4, ?T5, ?T1.
      * rewrite quiet_subs, subs_snoc, K1, Hb by auto. reflexivity.
      * rewrite quiet_since, since_snoc, E2, Hb by auto. split; discriminate.
      * auto.
      * apply at_once_new; auto.
    + intros Hs1. unfold live. rewrite T4. rewrite T9 by auto. auto.
Qed.

Lemma Hbegin now l q (w : W) u : P None now l q w -> Forall (fun x => fst x = true) l ->
  P (Some u) (Nat.max now u) (map (fun x => (false, snd x)) l) q (note (XTick u) w).
Proof.
  intros (HC & Sh & HK & HL) F. unfold P. wcbn. split; [|split; [|split]].
  - apply core_begin; simpl; auto.
  - apply shaped_begin; auto.
  - apply (@counts_step w _ (XTick u)); auto; discriminate.
  - intros Hs. specialize (HL Hs). unfold live in *. wcbn. destruct (w_st w); [destruct HL as [-> ->]; auto|].
    destruct (w_born w).
    + refine (one_begin _ _ HL). intros b wk (s & cur & E1 & E2 & E3 & E4). exists s, cur. snocs. subst cur. split; auto.
      split; auto. split; [auto|discriminate].
    + destruct HL as (-> & ->). auto.
Qed.

Lemma Hend t now l (w : W) : P (Some t) now l [] w -> Forall (fun x => fst x = true) l -> P None now l [] (note XEnd w).
Proof.
  intros (HC & Sh & HK & HL) F. pose proof HK as [K1 K2 K3 K4]. unfold P. wcbn. split; [|split; [auto|split]].
  - apply (@core_end _ _ _ _ _ _ _ t); auto. simpl. intros Ho. apply (c_open HC) in Ho.
    specialize (HL Ho). unfold live in HL. intros s Hsi Hd. rewrite <- (c_clock HC) in Hd.
    assert (Hb : w_born w = true) by (destruct (w_born w); auto; rewrite (proj2 K2 eq_refl) in Hsi; discriminate).
    rewrite Hb in *. unfold source_subscribed. rewrite K1. destruct (w_st w); [auto|].
    apply one_end in HL; auto. destruct HL as (wk & s' & cur & E1 & E2 & E3 & E4). destruct (E4 eq_refl). exfalso.
    assert (s = s') by congruence. lia.
  - apply (@counts_step w _ XEnd); auto; discriminate.
  - intros Hs. specialize (HL Hs). unfold live in *. wcbn. destruct (w_st w); [auto|].
    destruct (w_born w); [|auto]. inversion HL as [b wk H E1 E2|]; subst. apply Forall_inv in F. cbn in F. subst b. constructor.
    destruct H as (s & cur & M1 & M2 & M3 & E4). exists s, cur. snocs. split; auto. split; auto. split; auto.
    apply E4; auto.
Qed.

Lemma HS ph now l wk q (w : W) : P ph now l (QS wk :: q) w -> owned wk = true -> P ph now (l ++ [(false, wk)]) q w.
Proof.
  intros (HC & Sh & HK & HL) _. split; [auto|split; [apply shaped_HS; auto|split; [auto|]]].
  intros Hs. specialize (HL Hs). unfold live in *. destruct (w_st w); [destruct HL as [_ HL]; discriminate|].
  destruct (w_born w); [apply one_HS; auto|]. destruct HL as [_ HL]. discriminate.
Qed.
Lemma HC ph now l q (w : W) : P ph now l (QC _ _ :: q) w -> P ph now [] q w.
Proof.
  intros (HC & Sh & HK & HL). split; [auto|split; [eapply shaped_HC; eauto|split; [auto|]]].
  intros Hs. specialize (HL Hs). exfalso. unfold live in *. destruct (w_st w); [destruct HL as [_ HL]; discriminate|].
  destruct (w_born w); [eapply one_HC; eauto|]. destruct HL as [_ HL]. discriminate.
Qed.
Lemma Hinit : P None 0 [] [] (mkW (t_new T) false false false false [] []).
Proof.
  unfold P. wcbn. split; [apply core_init|]. split; [split; constructor|]. split; [|cbn; auto].
  split; cbn; auto; try discriminate. { split; auto. } intros [|? ?] ? ?; discriminate.
Qed.

Theorem subscribe_on_ok fuel depth h m : syss T down user fuel (start T depth) h = Fine m ->
  let tr := w_tr (m_world m) in
  always (subscribed_on down d) tr /\ answered down (@passed_on A E) tr /\
  forall p s, tr = p ++ XSub :: s -> since p <> None ->
  exists s1 s2, s = s1 ++ s2 /\ said s1 = to_end src /\ Forall quiet s1.
Proof.
  intros H.
  destruct (@lift_any _ _ _ _ _ _ T down user P Hclear Hcmd Hrun Hbegin Hend HS HC Hinit _ _ _ _ H) as (l & q & HP & F).
  destruct HP as (HC & Sh & HK & HL). split; [apply (c_good HC)|]. split; [apply (c_ans HC)|apply (k_once HK)].
Qed.
End SubOn.

Section Mirror.
Variables A E X : Type.
Variable d : nat.
Variable down : list (ncall A E) -> bool * list (req X).
Notation ev := (tev A A E).

Lemma heard_snoc (l : list ev) e : heard (l ++ [e]) =
  match e with XUp c => if 2 <=? subs l then heard l ++ [c] else heard l | _ => heard l end.
Proof.
  assert (Hc : forall l : list ev, fst (fold_left (fun (x : nat * list (ncall A E)) (e : ev) => match e with
    | XSub => (S (fst x), snd x)
    | XUp c => (fst x, if 2 <=? fst x then snd x ++ [c] else snd x)
    | _ => x end) l (0, [])) = subs l).
  { induction l0 as [|x l0 IH] using rev_ind; auto. rewrite fold_left_app, subs_snoc, <- IH. destruct x; reflexivity. }
  unfold heard. rewrite fold_left_app. destruct e; try reflexivity. cbn [fold_left snd fst]. rewrite Hc. reflexivity.
Qed.

Lemma snoc_inv {Y} (l l' : list Y) a b : l ++ [a] = l' ++ [b] -> l = l' /\ a = b.
Proof. apply app_inj_tail. Qed.

Lemma mirror_prefix tr : always (subscribed_on down d) tr -> answered down (@passed_on A E) tr ->
  forall p s, tr = p ++ s -> open down p ->
  heard p = outs p /\ (forall p' c, p = p' ++ [XUp c] -> subs p' < 2) \/
  exists p' c, p = p' ++ [XUp c] /\ 2 <= subs p' /\ heard p = outs p ++ [c].
Proof.
  intros Ha Hn. induction p as [|e p IH] using rev_ind; intros s Hs Ho.
  { left. split; auto. intros [|? ?] c; discriminate. }
  rewrite <- app_assoc in Hs. cbn [app] in Hs.
  assert (Hop : open down p).
  { destruct e; try (rewrite open_same in Ho by discriminate; exact Ho). apply open_out in Ho. tauto. }
  specialize (IH _ Hs Hop). assert (Hg := Ha _ _ _ Hs).
  destruct IH as [[IH Hl]|(p' & c & -> & Hc & IH)].
  - assert (Hsame : match e with XUp _ | XOut _ => False | _ => True end ->
      heard (p ++ [e]) = outs (p ++ [e]) /\ (forall p' c, p ++ [e] = p' ++ [XUp c] -> subs p' < 2)).
    { intros He. split.
      - rewrite heard_snoc, outs_app. destruct e; try destruct He; cbn; rewrite app_nil_r; auto.
      - intros p' c Hp. apply snoc_inv in Hp. destruct Hp as [_ ->]. destruct He. }
    destruct e as [| | |c|c]; try (left; apply Hsame; exact I).
    + destruct (2 <=? subs p) eqn:H2.
      * right. exists p, c. split; auto. split; [apply Nat.leb_le; auto|]. rewrite heard_snoc, H2, outs_app, IH. cbn. rewrite app_nil_r. auto.
      * left. split.
        -- rewrite heard_snoc, H2, outs_app, IH. cbn. rewrite app_nil_r. auto.
        -- intros p' c' Hp. apply snoc_inv in Hp. destruct Hp as [<- _]. apply Nat.leb_gt in H2. auto.
    + exfalso. destruct Hg as (_ & (p'' & Hp) & Hor). assert (Hlt := Hl _ _ Hp).
      destruct Hor as [Hor|Hor].
      * unfold source_subscribed in Hor. rewrite Hp, subs_snoc in Hor. lia.
      * subst c. apply open_out in Ho. destruct Ho as (_ & (b & Hb) & _). discriminate.
  - assert (Hnx : exists s', e :: s = XOut c :: s').
    { apply (Hn p' (XUp c) c (e :: s)); auto.
      - rewrite Hs, <- app_assoc. reflexivity.
      - cbn [passed_on]. apply Nat.leb_le in Hc. rewrite Hc. destruct c; auto. }
    destruct Hnx as (s' & Hnx). injection Hnx as -> ->. left. split.
    + rewrite heard_snoc, IH, outs_app with (l' := [XOut c]). reflexivity.
    + intros p'' c' Hp. apply snoc_inv in Hp. destruct Hp as [_ Hp]. discriminate.
Qed.

Lemma mirror_all tr : always (subscribed_on down d) tr -> answered down (@passed_on A E) tr ->
  open down tr -> outs tr = heard tr.
Proof.
  intros Ha Hn Ho. destruct (@mirror_prefix tr Ha Hn tr [] (eq_sym (app_nil_r tr)) Ho) as [[H _]|(p' & c & H1 & H2 & H3)]; auto.
  destruct (Hn p' (XUp c) c []) as (s' & Hs'); auto; [|rewrite <- H1; auto|discriminate].
  cbn [passed_on]. apply Nat.leb_le in H2. rewrite H2. destruct c; auto.
Qed.

(** A destination that is closed before the source is subscribed to prevents that. *)
Lemma never_after tr : always (subscribed_on down d) tr ->
  forall s p, tr = p ++ s -> ~ open down p -> since p <> None -> subs (p ++ s) = subs p.
Proof.
  intros Ha. induction s as [|e s IH]; intros p Hs Ho Hn; [rewrite app_nil_r; auto|].
  assert (Hg := Ha _ _ _ Hs). rewrite (app_assoc p [e] s : p ++ e :: s = _) in *.
  rewrite IH; auto.
  - rewrite subs_snoc. destruct e; auto. destruct Hg as [Hg|(_ & _ & Hg & _)]; tauto.
  - intros Ho'. apply Ho. destruct e; try (rewrite open_same in Ho' by discriminate; exact Ho'). apply open_out in Ho'. tauto.
  - rewrite since_snoc. destruct e; auto. destruct (since p); congruence.
Qed.

Theorem subscribe_on_mirrors src user fuel depth h m :
  syss (subscribe_on X d src) down user fuel (start (subscribe_on X d src) depth) h = Fine m ->
  open down (w_tr (m_world m)) -> outs (w_tr (m_world m)) = heard (w_tr (m_world m)).
Proof. intros H. destruct (subscribe_on_ok _ _ _ _ _ _ _ H) as (H1 & H2 & _). apply mirror_all; auto. Qed.

Theorem subscribe_on_never src user fuel depth h m p s :
  syss (subscribe_on X d src) down user fuel (start (subscribe_on X d src) depth) h = Fine m ->
  w_tr (m_world m) = p ++ s -> since p <> None -> ~ open down p -> subs (p ++ s) = subs p.
Proof.
  intros H Hp Hs Ho. destruct (subscribe_on_ok _ _ _ _ _ _ _ H) as (H1 & _ & _). apply (@never_after _ H1); auto.
Qed.
End Mirror.
