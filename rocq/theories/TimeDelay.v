(** delay. *)
From Coq Require Import ZArith.
From Verif Require Import Base SubscrModel SchedModel SchedProofs SchedExec TimeModel TimeLift TimeSpec TimeProofs.
Set Implicit Arguments.

Section Delay.
Variables A E X : Type.
Variable down : list (ncall A E) -> bool * list (req X).
Variable user : X -> nat -> list (tev A A E) -> X * bool * list (cmd A E X).
Variable d : nat.
Notation W := (world A A E counted A X).
Notation K := (clo A X).
Notation T := (delay A E X d).
Notation core := (core down (delayed down d) (@errors A E)).

Definition item (x : nat * A) (cur : nat) : work K := WDelayed (fst x) cur d (Some (KO (snd x))).
Definition shape (w : work K) : Prop := exists x cur, w = item x cur.
Definition shapes (l : list (bool * work K)) (q : list (qop A X)) : Prop :=
  Forall (fun x : bool * work K => shape (snd x)) l /\
  Forall (fun x : qop A X => match x with QS w => shape w | QC _ _ => True end) q.
(** It will be [now] in the eyes of the task when it is ticked. *)
Definition soon (ph : option nat) (now cur : nat) : Prop :=
  match ph with Some t => Nat.max cur t = now | None => cur = now end.
Definition active (ph : option nat) (now : nat) (y : bool * work K) (x : nat * A) : Prop :=
  exists cur, snd y = item x cur /\ if fst y then cur = now /\ now < fst x + d else soon ph now cur.
Definition queued (ph : option nat) (now : nat) (y : qop A X) (x : nat * A) : Prop :=
  exists cur, y = QS (item x cur) /\ soon ph now cur.

Record live (ph : option nat) (now : nat) l q (tr : list (tev A A E)) (s : counted) : Prop := mkLive {
  lv_pend : exists pl pq, Forall2 (active ph now) l pl /\ Forall2 (queued ph now) q pq /\
    skipn (length (values tr)) (pushes tr) = pl ++ pq /\ ct_n s = Z.of_nat (length (pl ++ pq)) /\
    (ct_off s = true \/ ct_done s = true -> pl ++ pq <> []);
  lv_len : length (values tr) <= length (pushes tr);
  lv_done : ct_done s = true <-> In (XUp Cmp) tr;
  lv_off : ct_off s = true -> ct_done s = false -> In (XUp Uns) tr
}.
Definition P ph now l q (w : W) : Prop :=
  core ph now (w_tr w) (w_shut w) /\ shapes l q /\ (w_shut w = false -> live ph now l q (w_tr w) (w_st w)).

Lemma Hclear ph now l q (w : W) : P ph now l q w <-> P ph now l q (clear w).
Proof. reflexivity. Qed.

Lemma live_same ph now l q tr s e :
  match e with XSub | XTick _ | XEnd | XUp Uns | XUp (Err _) => True | _ => False end ->
  live ph now l q tr s -> live ph now l q (tr ++ [e]) s.
Proof.
  intros He [(pl & pq & L1 & L2 & L3 & L4 & L5) L6 L7 L8].
  assert (V : values (tr ++ [e]) = values tr) by (snocs; destruct e as [| | |[]|]; try destruct He; apply app_nil_r).
  assert (U : pushes (tr ++ [e]) = pushes tr) by (snocs; destruct e as [| | |[]|]; try destruct He; apply app_nil_r).
  split.
  - exists pl, pq. rewrite V, U. auto.
  - rewrite V, U; auto.
  - rewrite L7, in_app_iff. simpl. split; auto. intros [?|[->|[]]]; auto. destruct He.
  - intros. apply in_or_app. auto.
Qed.

Lemma live_over ph now l q tr s : live ph now l q tr s -> (ct_n s =? 0)%Z = true -> length (values tr) = length (pushes tr).
Proof.
  intros [(pl & pq & L1 & L2 & L3 & L4 & L5) L6 L7 L8] Hz. apply Z.eqb_eq in Hz.
  apply skipn_none; auto. rewrite L3. destruct (pl ++ pq); auto. simpl in L4. lia.
Qed.

Lemma live_push ph now l q tr s a : soon ph now now -> now = clock tr -> live ph now l q tr s ->
  live ph now l (q ++ [QS (item (now, a) now)]) (tr ++ [XUp (Nxt a)]) (mkCt (ct_done s) (ct_off s) (ct_n s + 1)).
Proof.
  intros Hso Hc [(pl & pq & L1 & L2 & L3 & L4 & L5) L6 L7 L8]. split; cbn [ct_done ct_off ct_n].
  - exists pl, (pq ++ [(now, a)]). split; auto. split.
    { apply Forall2_app; auto. constructor; auto. exists now. split; auto. }
    snocs. rewrite skipn_snoc by auto. rewrite L3, <- app_assoc, <- Hc. split; auto. split.
    { rewrite app_assoc, app_length, L4, Nat2Z.inj_add. reflexivity. }
    intros _. rewrite app_assoc. destruct (pl ++ pq); discriminate.
  - snocs. rewrite app_length. simpl. lia.
  - rewrite L7, in_app_iff. simpl. split; auto. intros [?|[?|[]]]; auto. discriminate.
  - intros. apply in_or_app; auto.
Qed.

Lemma shapes_more l q q' : shapes l q -> Forall (fun x : qop A X => match x with QS w => shape w | QC _ _ => True end) q' -> shapes l (q ++ q').
Proof. intros [H1 H2] H3. split; auto. apply Forall_app; auto. Qed.

Lemma vr_one now a : vr now [QSched 0 (KDelayed d) (KO a)] = [QS (item (now, a) now)].
Proof. cbn. rewrite later_max. reflexivity. Qed.

Lemma soon_now ph now tr sh : core ph now tr sh -> soon ph now now.
Proof. intros [H _ _ _ _ _]. destruct ph; simpl; auto. lia. Qed.

Lemma Hcmd ph now l q (w : W) c : is_up c -> Forall (@rq_ok A X) (w_rs w) ->
  P ph now l (q ++ vr now (w_rs w)) w ->
  Forall (@rq_ok A X) (w_rs (do_cmd T down w c)) /\
  P ph now l (q ++ vr now (w_rs (do_cmd T down w c))) (do_cmd T down w c).
Proof.
  intros Hc F (HC & HSh & HL). destruct c as [|c|r]; [| |destruct Hc].
  - cbn [do_cmd]. destruct (w_born w); [split; [auto|split; auto]|]. split; auto. unfold P. cbn [delay t_sub]. wcbn. split; [|split; auto].
    + apply core_note; simpl; auto.
    + intros Hs. apply live_same; simpl; auto.
  - cbn [do_cmd]. unfold up. destruct (w_born w); [|split; [auto|split; auto]]. cbn [negb].
    assert (Over : forall o (w1 : W), o = Cmp \/ o = Uns -> w_shut w1 = false -> w_tr w1 = w_tr w ++ [XUp o] -> w_rs w1 = w_rs w ->
      w_shut w = false -> (ct_n (w_st w) =? 0)%Z = true ->
      Forall (@rq_ok A X) (w_rs (tell true down o w1)) /\
      P ph now l (q ++ vr now (w_rs (tell true down o w1))) (tell true down o w1)).
    { intros o w1 Ho E1 E2 E3 E4 E5. destruct (@tell_open A A E counted A X true down o w1 E1) as (rs & -> & R1 & R2).
      unfold P. wcbn. rewrite E2, E3. split; [apply Forall_app; auto|].
      assert (Hcl : closes down o (w_tr w ++ [XUp o]) = true) by (destruct Ho; subst; auto). rewrite E2 in R2.
      rewrite vr_app, R2, Hcl, app_assoc. rewrite E4 in HC. split; [|split; [|discriminate]].
      - rewrite <- Hcl. apply core_out; [| |auto].
        + apply core_note; [exact HC|simpl; auto|destruct Ho; subst; simpl; auto|simpl; auto].
        + cbn [delayed]. rewrite open_same by discriminate. split; [apply (core_isopen HC); auto|].
          assert (L := live_over (HL E4) E5).
          destruct Ho; subst o; (split; [apply in_or_app; simpl; auto|snocs; auto]).
      - apply shapes_more; auto. repeat constructor. }
    destruct c as [a|x| |]; try (destruct (w_over w); [split; [auto|split; auto]; fail|]); cbn [delay t_up t_torn delay_up]; wcbn.
    + (* a value *)
      split. { apply Forall_app; split; auto. repeat constructor. }
      rewrite vr_app, app_assoc, vr_one. unfold P. wcbn. split; [|split].
      * apply core_note; simpl; auto.
      * apply shapes_more; auto. repeat constructor. exists (now, a), now. auto.
      * intros Hs. apply live_push; auto; [apply (soon_now HC)|apply (c_clock HC)].
    + (* an error *)
      destruct (w_shut w) eqn:Hs.
      * rewrite tell_shut by (wcbn; auto). unfold P. wcbn. split. { apply Forall_app; split; auto. }
        rewrite Hs, vr_app, app_assoc. split; [|split; [|discriminate]].
        -- apply core_note; simpl; auto.
        -- apply shapes_more; auto. repeat constructor.
      * match goal with |- context [tell true down (Err x) ?w1] => destruct (@tell_open A A E counted A X true down (Err x) w1) as (rs & -> & R1 & R2); [exact Hs|] end.
        unfold P. wcbn. cbn [closes andb] in R2. split. { rewrite !Forall_app. repeat split; auto. }
        rewrite !vr_app, R2, app_assoc. split; [|split; [|discriminate]].
        -- apply (@core_ans A A E X down _ (@errors A E)); simpl; auto. split; [|eauto].
           rewrite open_same by discriminate. apply (core_isopen HC); auto.
        -- rewrite app_assoc. apply shapes_more; [|repeat constructor].
           rewrite <- app_assoc. rewrite app_assoc. apply shapes_more; auto. repeat constructor.
    + (* completion *)
      destruct (ct_n (w_st w) =? 0)%Z eqn:Hz.
      * destruct (w_shut w) eqn:Hs; [|apply Over; auto].
        rewrite tell_shut by (wcbn; auto). unfold P. wcbn. split; auto. rewrite Hs. split; [|split; [auto|discriminate]].
        apply core_note; simpl; auto.
      * unfold P. wcbn. split; auto. split; [|split; auto].
        { apply core_note; simpl; auto. }
        intros Hs. destruct (HL Hs) as [(pl & pq & L1 & L2 & L3 & L4 & L5) L6 L7 L8]. split; cbn [ct_done ct_off ct_n].
        -- exists pl, pq. snocs. repeat (split; auto). intros _ Z. rewrite L4, Z in Hz. discriminate.
        -- snocs; auto.
        -- split; auto. intros. apply in_or_app; simpl; auto.
        -- discriminate.
    + (* unsubscribing *)
      destruct (w_shut w) eqn:Hs; cbn [orb].
      { unfold P. wcbn. split; auto. rewrite Hs. split; [|split; [auto|discriminate]]. apply core_note; simpl; auto. }
      destruct (ct_off (w_st w)) eqn:Ho.
      { unfold P. wcbn. split; auto. rewrite Hs. split; [|split; [auto|]].
        - apply core_note; simpl; auto.
        - intros _. apply live_same; simpl; auto. }
      destruct (ct_n (w_st w) =? 0)%Z eqn:Hz; [apply Over; auto|].
      unfold P. wcbn. split; auto. rewrite Hs. split; [|split; auto].
      { apply core_note; simpl; auto. }
      intros _. destruct (HL eq_refl) as [(pl & pq & L1 & L2 & L3 & L4 & L5) L6 L7 L8]. split; cbn [ct_done ct_off ct_n].
      * exists pl, pq. snocs. repeat (split; auto). intros _ Z. rewrite L4, Z in Hz. discriminate.
      * snocs; auto.
      * rewrite L7, in_app_iff. simpl. split; auto. intros [?|[?|[]]]; auto. discriminate.
      * intros. apply in_or_app; simpl; auto.
Qed.

Lemma item_inj x y c c' : item x c = item y c' -> x = y /\ c = c'.
Proof. unfold item. intros H. injection H as H1 H2 H3. destruct x, y; simpl in *. split; congruence. Qed.

Lemma Hrun fuel t now l1 wk l2 q (w : W) wk' r w' rs :
  P (Some t) now (l1 ++ (false, wk) :: l2) q w -> Forall (fun x => fst x = true) l1 -> owned wk = true ->
  wtick (run T down user) fuel wk t w = Some (wk', r, w', rs) ->
  Forall (@rq_ok A X) rs /\
  P (Some t) now (l1 ++ (if r then [] else [(true, wk')]) ++ l2) (q ++ vr now rs) w'.
Proof.
  intros (HC & [Sh1 Sh2] & HL) Ht _.
  assert (Sh : shape wk). { rewrite Forall_app in Sh1. destruct Sh1 as [_ H6]. inversion H6; auto. }
  assert (Sh3 : shapes (l1 ++ l2) q).
  { split; auto. rewrite Forall_app in *. destruct Sh1 as [? H6]. inversion H6; auto. }
  destruct Sh as (x & cur & ->). cbn [wtick item].
  destruct (fst x + d <=? Nat.max cur t) eqn:Hd.
  2: { intros Y; injection Y as <- <- <- <-. split; auto. cbn [vr flat_map]. rewrite app_nil_r. split; [auto|split].
       - split; auto. rewrite Forall_app in *. destruct Sh1 as [F1 F2]. split; auto. inversion F2; subst. constructor; auto.
         exists x, (Nat.max cur t). auto.
       - intros Hs. destruct (HL Hs) as [(pl & pq & L1 & L2 & L3 & L4 & L5) L6 L7 L8]. split; auto.
         exists pl, pq. split; auto. clear -L1 Hd.
         apply Forall2_app_inv_l in L1. destruct L1 as (a & b & Fa & Fb & ->). apply Forall2_app; auto.
         inversion Fb as [|y1 x1 l1' pl' Q1 Q2 E1 E2]; subst. constructor; auto.
         destruct Q1 as (cur1 & Q1 & Q3). cbn in Q3. apply item_inj in Q1. destruct Q1 as [<- <-].
         exists (Nat.max cur t). cbn. split; auto. split; auto.
         apply Nat.leb_gt in Hd. lia. }
  apply Nat.leb_le in Hd. cbn [run].
  cbn [delay t_run t_torn].
  intros Y; injection Y as <- <- <- <-. cbn [app].
  unfold deliver. wcbn. destruct (w_shut w) eqn:Hs.
  { wcbn. rewrite Hs. cbn [negb]. rewrite !andb_false_r. unfold P. wcbn. split; auto. cbn [vr flat_map]. rewrite app_nil_r, Hs.
    split; [auto|]. split; [auto|discriminate]. }
  destruct (HL eq_refl) as [(pl & pq & L1 & L2 & L3 & L4 & L5) L6 L7 L8].
  (* due: it is the first *)
  assert (El : l1 = []).
  { destruct l1 as [|y l1]; auto. exfalso.
    simpl in L1. inversion L1 as [|y1 x1 l1' pl' Q1 Q2 E1 E2]; subst.
    apply Forall2_app_inv_l in Q2. destruct Q2 as (a & b & Fa & Fb & ->).
    inversion Fb as [|y2 x2 l2' pl2 Q3 Q4 E3 E4]; subst. clear Fb L1.
    assert (H9 := Forall_inv Ht). destruct Q1 as (c1 & Q1 & Q5). cbn beta in H9. rewrite H9 in Q5.
    destruct Q3 as (c2 & Q3 & Q6). cbn in Q6. apply item_inj in Q3. destruct Q3 as [<- <-].
    assert (fst x1 <= fst x).
    { apply (pushes_sorted (w_tr w) (firstn (length (values (w_tr w))) (pushes (w_tr w))) x1 a x (pl2 ++ pq)).
      rewrite <- (firstn_skipn (length (values (w_tr w))) (pushes (w_tr w))) at 1. rewrite L3. simpl. rewrite <- app_assoc. reflexivity. }
    lia. }
  subst l1. cbn [app] in *.
  inversion L1 as [|y1 x1 l1' pl' Q1 Q2 E1 E2]; subst. clear L1.
  destruct Q1 as (c1 & Q1 & Q3). cbn in Q3. apply item_inj in Q1. destruct Q1 as [<- <-].
  cbn [app] in L3.
  assert (Hn := skipn_nth _ _ L3). assert (Hs1 := skipn_next _ _ L3).
  assert (Hg : delayed down d (w_tr w) (XOut (Nxt (snd x)))).
  { split; [apply (core_isopen HC); auto|]. exists (fst x). split; [destruct x; auto|]. rewrite <- (c_clock HC).
    split; [lia|]. apply (c_tick HC). }
  assert (Hlen : S (length (values (w_tr w))) <= length (pushes (w_tr w))).
  { apply nth_error_Some. rewrite Hn. discriminate. }
  destruct (@tell_open A A E counted A X true down (Nxt (snd x)) (clear w) Hs) as (rs & -> & R1 & R2).
  revert R2. wcbn. cbn [app]. rewrite andb_true_r. intros R2.
  set (tr1 := w_tr w ++ [XOut (Nxt (snd x))]) in *.
  assert (C1 := core_out _ HC Hg (or_intror eq_refl)). fold tr1 in C1.
  assert (V1 : length (values tr1) = S (length (values (w_tr w)))).
  { unfold tr1. snocs. rewrite app_length. simpl. lia. }
  assert (U1 : pushes tr1 = pushes (w_tr w)) by (unfold tr1; snocs; auto).
  destruct (closes down (Nxt (snd x)) (w_tr w)) eqn:Hcl; cbn [negb].
  { rewrite !andb_false_r. unfold P. wcbn. split; [exact R1|]. rewrite R2. split; [auto|]. split; [|discriminate].
    apply shapes_more; auto. }
  rewrite !andb_true_r.
  assert (LV : (ct_n (w_st w) =? 1)%Z = false \/ (ct_done (w_st w) = false /\ ct_off (w_st w) = false) ->
    live (Some t) now l2 q tr1 (mkCt (ct_done (w_st w)) (ct_off (w_st w)) (ct_n (w_st w) - 1))).
  { intros Hc. split; cbn [ct_done ct_off ct_n].
    - exists pl', pq. rewrite V1, U1, L4. repeat (split; auto).
      { simpl length. lia. }
      intros Hx Z. destruct Hc as [Hc|[Hc Hc2]]; [|destruct Hx; congruence].
      rewrite L4 in Hc. simpl in Hc. rewrite Z in Hc. discriminate.
    - rewrite V1, U1. auto.
    - rewrite L7. unfold tr1. rewrite in_app_iff. simpl. split; auto. intros [?|[?|[]]]; auto; discriminate.
    - intros. unfold tr1. apply in_or_app; auto. }
  destruct (ct_n (w_st w) =? 1)%Z eqn:H1.
  2: { rewrite !andb_false_r. unfold P. wcbn. split; [exact R1|]. rewrite R2, app_nil_r. auto. }
  rewrite !andb_true_r.
  assert (Hend : forall c (w1 : W), c = Cmp \/ c = Uns -> In (XUp c) (w_tr w) -> 
    w_tr w1 = tr1 -> w_rs w1 = rs -> w_shut w1 = false ->
    Forall (rq_ok (X:=X)) (w_rs (tell true down c w1)) /\
    P (Some t) now l2 (q ++ vr now (w_rs (tell true down c w1))) (tell true down c w1)).
  { intros c w1 Hc Hi E1 E2 E3. destruct (@tell_open A A E counted A X true down c w1 E3) as (rs2 & -> & R3 & R4).
    assert (Ec : closes down c tr1 = true) by (destruct Hc; subst; auto).
    unfold P. wcbn. rewrite E1, E2 in *. rewrite Ec in R4. rewrite Ec. split; [apply Forall_app; auto|].
    rewrite vr_app, R2, R4. cbn [app andb]. split; [|split; [|discriminate]].
    - rewrite <- Ec. apply core_out; auto. cbn [delayed]. split; [apply (core_isopen C1); auto|].
      assert (L : length (values tr1) = length (pushes tr1)).
      { rewrite V1, U1. apply skipn_none; auto. rewrite Hs1. apply Z.eqb_eq in H1. rewrite L4 in H1. cbn [app] in H1.
        destruct (pl' ++ pq); auto. cbn [length] in H1. lia. }
      destruct Hc; subst c; (split; [apply in_or_app; auto|auto]).
    - apply shapes_more; auto. }
  destruct (ct_done (w_st w)) eqn:Hdone.
  { apply Hend; auto. tauto. }
  destruct (ct_off (w_st w)) eqn:Hoff.
  { apply Hend; auto. }
  unfold P. wcbn. split; [exact R1|]. rewrite R2, app_nil_r. split; auto.
Qed.

Lemma Hbegin now l q (w : W) u : P None now l q w -> Forall (fun x => fst x = true) l ->
  P (Some u) (Nat.max now u) (map (fun x => (false, snd x)) l) q (note (XTick u) w).
Proof.
  intros (HC & [Sh1 Sh2] & HL) F. unfold P. wcbn. split; [|split].
  - apply core_begin; simpl; auto.
  - split; auto. rewrite Forall_map. auto.
  - intros Hs. apply live_same; simpl; auto. destruct (HL Hs) as [(pl & pq & L1 & L2 & L3 & L4 & L5) L6 L7 L8]. split; auto.
    exists pl, pq. split.
    { clear -F L1. induction L1 as [|y x l pl Q L IH]; [constructor|]. inversion F; subst. constructor; auto.
      destruct Q as (cur & Q1 & Q2). rewrite H1 in Q2. destruct Q2 as [-> Q2]. exists now. cbn. auto. }
    split; auto. clear -L2. induction L2 as [|y x l pl Q L IH]; constructor; auto. destruct Q as (cur & -> & Q).
    cbn in Q. subst cur. exists now. cbn. auto.
Qed.

Lemma Hend t now l (w : W) : P (Some t) now l [] w -> Forall (fun x => fst x = true) l -> P None now l [] (note XEnd w).
Proof.
  intros (HC & Sh & HL) F. unfold P. wcbn. split; [|split; auto].
  - apply (@core_end _ _ _ _ _ _ _ t); auto. simpl. intros Ho n s a Hn Hd. apply (c_open HC) in Ho.
    destruct (HL Ho) as [(pl & pq & L1 & L2 & L3 & L4 & L5) L6 L7 L8].
    destruct (Nat.lt_ge_cases n (length (values (w_tr w)))) as [|Hge]; auto. exfalso.
    assert (I : In (s, a) (skipn (length (values (w_tr w))) (pushes (w_tr w)))).
    { rewrite <- (firstn_skipn (length (values (w_tr w))) (pushes (w_tr w))) in Hn.
      rewrite nth_error_app2 in Hn by (rewrite firstn_length; lia). eapply nth_error_In; eauto. }
    inversion L2; subst. rewrite L3, app_nil_r in I. rewrite <- (c_clock HC) in Hd.
    clear -L1 F I Hd. induction L1 as [|y x l pl Q L IH]; [destruct I|].
    inversion F; subst. destruct I as [->|I]; auto. destruct Q as (cur & _ & Q). rewrite H1 in Q. simpl in Q. lia.
  - intros Hs. apply live_same; simpl; auto. destruct (HL Hs) as [(pl & pq & L1 & L2 & L3 & L4 & L5) L6 L7 L8]. split; auto.
    exists pl, pq. split; [|split; [inversion L2; constructor|auto]].
    clear -F L1. induction L1 as [|y x l pl Q L IH]; [constructor|]. inversion F; subst. constructor; auto.
    destruct Q as (cur & Q1 & Q2). rewrite H1 in Q2. exists cur. rewrite H1. auto.
Qed.

Lemma HS ph now l wk q (w : W) : P ph now l (QS wk :: q) w -> owned wk = true -> P ph now (l ++ [(false, wk)]) q w.
Proof.
  intros (HC & [Sh1 Sh2] & HL) _. inversion Sh2; subst. split; [auto|split].
  - split; auto. apply Forall_app; split; auto.
  - intros Hs. destruct (HL Hs) as [(pl & pq & L1 & L2 & L3 & L4 & L5) L6 L7 L8]. split; auto.
    inversion L2 as [|y x q' pq' Q L E1 E2]; subst. exists (pl ++ [x]), pq'. rewrite <- app_assoc. simpl. split; auto.
    apply Forall2_app; auto. constructor; auto. destruct Q as (cur & Q1 & Q2). injection Q1 as ->. exists cur. auto.
Qed.
Lemma HC ph now l q (w : W) : P ph now l (QC _ _ :: q) w -> P ph now [] q w.
Proof.
  intros (HC & [Sh1 Sh2] & HL). inversion Sh2; subst. split; [auto|split; [split; auto|]].
  intros Hs. destruct (HL Hs) as [(pl & pq & L1 & L2 & L3 & L4 & L5) L6 L7 L8].
  inversion L2 as [|y x q' pq' Q L E1 E2]; subst. destruct Q as (cur & Q1 & _). discriminate.
Qed.
Lemma Hinit : P None 0 [] [] (mkW (t_new T) false false false false [] []).
Proof.
  unfold P. wcbn. split; [apply core_init|]. split; [split; constructor|].
  intros _. split; cbn; auto.
  - exists [], []. repeat split; auto; cbn. intros [|]; discriminate.
  - split; [discriminate|tauto].
  - discriminate.
Qed.

Theorem delay_ok fuel depth h m : syss T down user fuel (start T depth) h = Fine m ->
  let tr := w_tr (m_world m) in
  always (delayed down d) tr /\ answered down (@errors A E) tr /\
  (open down tr -> In (XUp Cmp) tr -> length (values tr) < length (pushes tr)).
Proof.
  intros H.
  destruct (@lift_any _ _ _ _ _ _ T down user P Hclear Hcmd Hrun Hbegin Hend HS HC Hinit _ _ _ _ H) as (l & q & HP & F).
  destruct HP as (HC & Sh & HL). split; [apply (c_good HC)|split; [apply (c_ans HC)|]].
  intros Ho Hc. apply (c_open HC) in Ho. destruct (HL Ho) as [(pl & pq & L1 & L2 & L3 & L4 & L5) L6 L7 L8].
  apply L7 in Hc. assert (N := L5 (or_intror Hc)). rewrite <- L3 in N.
  destruct (Nat.lt_ge_cases (length (values (w_tr (m_world m)))) (length (pushes (w_tr (m_world m))))); auto.
  rewrite skipn_all2 in N by auto. destruct N; auto.
Qed.
End Delay.
