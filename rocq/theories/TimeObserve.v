(** observe_on. *)
From Coq Require Import ZArith.
From Verif Require Import Base SubscrModel SchedModel SchedProofs SchedExec TimeModel TimeLift TimeSpec TimeProofs.
Set Implicit Arguments.

Section Observe.
Variables A E X : Type.
Variable down : list (ncall A E) -> bool * list (req X).
Variable user : X -> nat -> list (tev A A E) -> X * bool * list (cmd A E X).
Notation O := (option A).
Notation W := (world A A E counted O X).
Notation K := (clo O X).
Notation T := (observe_on A E X).
Notation core := (core down (observed down) (@errors A E)).

Definition item (o : O) : work K := WImmediate (Some (KO o)).
Definition shapes (l : list (bool * work K)) (q : list (qop O X)) : Prop :=
  Forall (fun x : bool * work K => fst x = false /\ exists o, snd x = item o) l /\
  Forall (fun x : qop O X => match x with QS w => exists o, w = item o | QC _ _ => True end) q.

Record live l q (tr : list (tev A A E)) (s : counted) (over : bool) : Prop := mkLive {
  lv_pend : exists ol oq ps, l = map (fun o => (false, item o)) ol /\ q = map (fun o => QS (item o)) oq /\
    skipn (length (values tr)) (map snd (pushes tr)) = ps /\
    ol ++ oq = map Some ps ++ (if ct_done s then [None] else []) /\ ct_n s = Z.of_nat (length ps) /\
    (ct_off s = true \/ ct_done s = true -> ps <> []);
  lv_len : length (values tr) <= length (map snd (pushes tr));
  lv_done : ct_done s = true -> In (XUp Cmp) tr /\ over = true;
  lv_off : ct_off s = true -> ct_done s = false -> In (XUp Uns) tr;
  lv_cmp : In (XUp Cmp) tr -> ct_done s = true
}.
Definition P ph now l q (w : W) : Prop :=
  core ph now (w_tr w) (w_shut w) /\ shapes l q /\
  (w_shut w = false -> live l q (w_tr w) (w_st w) (w_over w)).

Lemma Hclear ph now l q (w : W) : P ph now l q w <-> P ph now l q (clear w).
Proof. reflexivity. Qed.

Lemma live_same l q tr s e o o' :
  match e with XSub | XTick _ | XEnd | XUp Uns | XUp (Err _) => True | _ => False end -> (o = true -> o' = true) ->
  live l q tr s o -> live l q (tr ++ [e]) s o'.
Proof.
  intros He Hoo [(ol & oq & ps & L0 & L1 & L2 & L3 & L4 & L5) L6 L7 L8 L9].
  assert (V : values (tr ++ [e]) = values tr) by (snocs; destruct e as [| | |[]|]; try destruct He; apply app_nil_r).
  assert (U : pushes (tr ++ [e]) = pushes tr) by (snocs; destruct e as [| | |[]|]; try destruct He; apply app_nil_r).
  split.
  - exists ol, oq, ps. rewrite V, U. auto 6.
  - rewrite V, U; auto.
  - intros Hd. destruct (L7 Hd). split; [apply in_or_app|]; auto.
  - intros. apply in_or_app. auto.
  - rewrite in_app_iff. simpl. intros [?|[->|[]]]; auto; destruct He.
Qed.

Lemma live_over l q tr s o : live l q tr s o -> (ct_n s =? 0)%Z = true -> length (values tr) = length (pushes tr).
Proof.
  intros [(ol & oq & ps & L0 & L1 & L2 & L3 & L4 & L5) L6 L7 L8] Hz. apply Z.eqb_eq in Hz.
  rewrite <- (map_length snd (pushes tr)). apply skipn_none; auto. rewrite L2. destruct ps; auto. simpl in L4. lia.
Qed.

Lemma shapes_more l q q' : shapes l q -> Forall (fun x : qop O X => match x with QS w => exists o, w = item o | QC _ _ => True end) q' -> shapes l (q ++ q').
Proof. intros [H1 H2] H3. split; auto. apply Forall_app; auto. Qed.

Lemma Hcmd ph now l q (w : W) c : is_up c -> Forall (@rq_ok O X) (w_rs w) ->
  P ph now l (q ++ vr now (w_rs w)) w ->
  Forall (@rq_ok O X) (w_rs (do_cmd T down w c)) /\
  P ph now l (q ++ vr now (w_rs (do_cmd T down w c))) (do_cmd T down w c).
Proof.
  intros Hc F HP. pose proof HP as (HC & HSh & HL). destruct c as [|c|r]; [| |destruct Hc].
  - cbn [do_cmd]. destruct (w_born w); [split; [auto|split; auto]|]. split; auto. unfold P. cbn [observe_on t_sub]. wcbn. split; [|split; auto].
    + apply core_note; simpl; auto.
    + intros Hs. eapply live_same; simpl; eauto.
  - cbn [do_cmd]. unfold up. destruct (w_born w); [|split; [auto|split; auto]]. cbn [negb].
    assert (Over : forall o (w1 : W), o = Cmp \/ o = Uns -> w_shut w1 = false -> w_tr w1 = w_tr w ++ [XUp o] -> w_rs w1 = w_rs w ->
      w_shut w = false -> (ct_n (w_st w) =? 0)%Z = true ->
      Forall (@rq_ok O X) (w_rs (tell true down o w1)) /\
      P ph now l (q ++ vr now (w_rs (tell true down o w1))) (tell true down o w1)).
    { intros o w1 Ho E1 E2 E3 E4 E5. destruct (@tell_open A A E counted O X true down o w1 E1) as (rs & -> & R1 & R2).
      unfold P. wcbn. rewrite E2, E3. split; [apply Forall_app; auto|].
      assert (Hcl : closes down o (w_tr w ++ [XUp o]) = true) by (destruct Ho; subst; auto). rewrite E2 in R2.
      rewrite vr_app, R2, Hcl, app_assoc. rewrite E4 in HC. split; [|split; [|discriminate]].
      - rewrite <- Hcl. apply core_out; [| |auto].
        + apply core_note; [exact HC|simpl; auto|destruct Ho; subst; simpl; auto|simpl; auto].
        + cbn [observed]. rewrite open_same by discriminate. split; [apply (core_isopen HC); auto|].
          assert (L := live_over (HL E4) E5).
          destruct Ho; subst o; (split; [apply in_or_app; simpl; auto|snocs; auto]).
      - apply shapes_more; auto. repeat constructor. }
    destruct c as [a|x| |]; try (destruct (w_over w) eqn:Hov; [split; [exact F|exact HP]; fail|]); cbn [observe_on t_up t_torn observe_on_up]; wcbn.
    + (* a value *)
      split. { apply Forall_app; split; auto. repeat constructor. }
      rewrite vr_app, app_assoc. change (vr now [_]) with [QS (item (Some a))]. unfold P. wcbn. split; [|split].
      * apply core_note; simpl; auto.
      * apply shapes_more; auto. repeat constructor. exists (Some a). auto.
      * intros Hs. destruct (HL Hs) as [(ol & oq & ps & L0 & L1 & L2 & L3 & L4 & L5) L6 L7 L8 L9].
        assert (Hnd : ct_done (w_st w) = false).
        { destruct (ct_done (w_st w)); auto. destruct (L7 eq_refl). congruence. }
        rewrite Hnd in *. split; cbn [ct_done ct_off ct_n].
        -- exists ol, (oq ++ [Some a]), (ps ++ [a]). split; auto. split. { rewrite L1, map_app. reflexivity. }
           snocs. rewrite map_app. cbn [map snd]. rewrite skipn_snoc by auto. rewrite L2. split; auto. split.
           { rewrite app_nil_r in *. rewrite app_assoc, L3, map_app. reflexivity. }
           split. { rewrite app_length, L4, Nat2Z.inj_add. reflexivity. }
           intros _. destruct ps; discriminate.
        -- snocs. rewrite map_app, app_length. cbn. lia.
        -- discriminate.
        -- intros. apply in_or_app; auto.
        -- rewrite in_app_iff. simpl. intros [?|[?|[]]]; auto. discriminate.
    + (* an error *)
      destruct (w_shut w) eqn:Hs.
      * rewrite tell_shut by (wcbn; auto). unfold P. wcbn. split; auto.
        rewrite Hs. split; [|split; [auto|discriminate]]. apply core_note; simpl; auto.
      * match goal with |- context [tell true down (Err x) ?w1] => destruct (@tell_open A A E counted O X true down (Err x) w1) as (rs & -> & R1 & R2); [exact Hs|] end.
        unfold P. wcbn. cbn [closes andb] in R2. split. { rewrite !Forall_app. repeat split; auto. }
        rewrite !vr_app, R2, app_assoc. split; [|split; [|discriminate]].
        -- apply (@core_ans A A E X down _ (@errors A E)); simpl; auto. split; [|eauto].
           rewrite open_same by discriminate. apply (core_isopen HC); auto.
        -- apply shapes_more; auto.
    + (* completion *)
      destruct (ct_n (w_st w) =? 0)%Z eqn:Hz.
      * destruct (w_shut w) eqn:Hs; [|apply Over; auto].
        rewrite tell_shut by (wcbn; auto). unfold P. wcbn. split; auto. rewrite Hs. split; [|split; [auto|discriminate]].
        apply core_note; simpl; auto.
      * wcbn. split. { apply Forall_app; split; auto. repeat constructor. }
        rewrite vr_app, app_assoc. change (vr now [_]) with [QS (item None)]. unfold P. wcbn. split; [|split].
        { apply core_note; simpl; auto. }
        { apply shapes_more; auto. repeat constructor. exists None. auto. }
        intros Hs. destruct (HL Hs) as [(ol & oq & ps & L0 & L1 & L2 & L3 & L4 & L5) L6 L7 L8 L9].
        assert (Hnd : ct_done (w_st w) = false).
        { destruct (ct_done (w_st w)); auto. destruct (L7 eq_refl). congruence. }
        rewrite Hnd in *. split; cbn [ct_done ct_off ct_n].
        -- exists ol, (oq ++ [None]), ps. split; auto. split. { rewrite L1, map_app. reflexivity. }
           snocs. split; auto. split. { rewrite app_nil_r in *. rewrite app_assoc, L3. reflexivity. }
           split; auto. intros _ Z. rewrite L4, Z in Hz. discriminate.
        -- snocs; auto.
        -- split; auto. apply in_or_app; simpl; auto.
        -- discriminate.
        -- auto.
    + (* unsubscribing *)
      destruct (w_shut w) eqn:Hs; cbn [orb].
      { unfold P. wcbn. split; auto. rewrite Hs. split; [|split; [auto|discriminate]]. apply core_note; simpl; auto. }
      destruct (ct_n (w_st w) =? 0)%Z eqn:Hz; [apply Over; auto|].
      unfold P. wcbn. split; auto. rewrite Hs. split; [|split; auto].
      { apply core_note; simpl; auto. }
      intros _. destruct (HL eq_refl) as [(ol & oq & ps & L0 & L1 & L2 & L3 & L4 & L5) L6 L7 L8 L9]. split; cbn [ct_done ct_off ct_n].
      * exists ol, oq, ps. snocs. repeat (split; auto). intros _ Z. rewrite L4, Z in Hz. discriminate.
      * snocs; auto.
      * intros Hd. destruct (L7 Hd). split; auto. apply in_or_app; auto.
      * intros. apply in_or_app; simpl; auto.
      * rewrite in_app_iff. simpl. intros [?|[?|[]]]; auto. discriminate.
Qed.

Lemma Hrun fuel t now l1 wk l2 q (w : W) wk' r w' rs :
  P (Some t) now (l1 ++ (false, wk) :: l2) q w -> Forall (fun x => fst x = true) l1 -> owned wk = true ->
  wtick (run T down user) fuel wk t w = Some (wk', r, w', rs) ->
  Forall (@rq_ok O X) rs /\
  P (Some t) now (l1 ++ (if r then [] else [(true, wk')]) ++ l2) (q ++ vr now rs) w'.
Proof.
  intros (HC & [Sh1 Sh2] & HL) Ht _.
  assert (El : l1 = []).
  { destruct l1 as [|y l1]; auto. exfalso. simpl in Sh1. apply Forall_inv in Sh1. apply Forall_inv in Ht. destruct Sh1. congruence. }
  subst l1. cbn [app] in *. inversion Sh1 as [|? ? [_ (o & Ho)] Sh3]; subst. cbn in Ho. subst wk. 
  assert (Sh4 : shapes l2 q) by (split; auto).
  cbn [wtick item run observe_on t_run t_torn].
  intros Y; injection Y as <- <- <- <-. cbn [app].
  destruct (w_shut w) eqn:Hs.
  { match goal with |- context [w_rs ?x] => assert (Z : exists s, x = st s (clear w)) end.
    { destruct o as [a|]; [|eauto]. unfold deliver. wcbn. rewrite Hs. wcbn. rewrite Hs. cbn [negb]. rewrite !andb_false_r. eauto. }
    destruct Z as [s ->]. unfold P. wcbn. split; auto. cbn [vr flat_map]. rewrite app_nil_r, Hs.
    split; [auto|]. split; [auto|discriminate]. }
  destruct (HL eq_refl) as [(ol & oq & ps & L0 & L1 & L2 & L3 & L4 & L5) L6 L7 L8 L9].
  destruct ol as [|o1 ol]; [discriminate|]. cbn [map] in L0. injection L0 as <- L0.
  cbn [app] in L3.
  destruct ps as [|a ps].
  { exfalso. cbn [map app] in L3. destruct (ct_done (w_st w)); [|discriminate]. apply L5; auto. }
  cbn [map app] in L3. injection L3 as -> L3.
  assert (Hn := skipn_nth _ _ L2). assert (Hs1 := skipn_next _ _ L2).
  assert (Hg : observed down (w_tr w) (XOut (Nxt a))).
  { split; [apply (core_isopen HC); auto|]. split; auto. apply (c_tick HC). }
  assert (Hlen : S (length (values (w_tr w))) <= length (map snd (pushes (w_tr w)))).
  { apply nth_error_Some. rewrite Hn. discriminate. }
  unfold deliver. wcbn. rewrite Hs.
  destruct (@tell_open A A E counted O X true down (Nxt a) (clear w) Hs) as (rs & -> & R1 & R2).
  revert R2. wcbn. cbn [app]. rewrite andb_true_r. intros R2.
  set (tr1 := w_tr w ++ [XOut (Nxt a)]) in *.
  assert (C1 := core_out _ HC Hg (or_intror eq_refl)). fold tr1 in C1.
  assert (V1 : length (values tr1) = S (length (values (w_tr w)))).
  { unfold tr1. snocs. rewrite app_length. simpl. lia. }
  assert (U1 : pushes tr1 = pushes (w_tr w)) by (unfold tr1; snocs; auto).
  destruct (closes down (Nxt a) (w_tr w)) eqn:Hcl; cbn [negb].
  { rewrite !andb_false_r. unfold P. wcbn. split; [exact R1|]. rewrite R2. split; [auto|]. split; [|discriminate].
    apply shapes_more; auto. }
  rewrite !andb_true_r.
  assert (LV : (ct_n (w_st w) =? 1)%Z = false \/ (ct_done (w_st w) = false /\ ct_off (w_st w) = false) ->
    live l2 q tr1 (mkCt (ct_done (w_st w)) (ct_off (w_st w)) (ct_n (w_st w) - 1)) (w_over w)).
  { intros Hc. split; cbn [ct_done ct_off ct_n].
    - exists ol, oq, ps. rewrite V1, U1, L4. repeat (split; auto).
      { simpl length. lia. }
      intros Hx Z. destruct Hc as [Hc|[Hc Hc2]]; [|destruct Hx; congruence].
      rewrite L4 in Hc. simpl in Hc. rewrite Z in Hc. discriminate.
    - rewrite V1, U1. auto.
    - unfold tr1. intros Hd. destruct (L7 Hd). split; auto. apply in_or_app; auto.
    - intros. unfold tr1. apply in_or_app; auto.
    - unfold tr1. rewrite in_app_iff. simpl. intros [?|[?|[]]]; auto; discriminate. }
  destruct (ct_n (w_st w) =? 1)%Z eqn:H1.
  2: { rewrite !andb_false_r. unfold P. wcbn. split; [exact R1|]. rewrite R2, app_nil_r. auto. }
  rewrite !andb_true_r.
  assert (Hend : forall c (w1 : W), c = Cmp \/ c = Uns -> In (XUp c) (w_tr w) -> 
    w_tr w1 = tr1 -> w_rs w1 = rs -> w_shut w1 = false ->
    Forall (rq_ok (X:=X)) (w_rs (tell true down c w1)) /\
    P (Some t) now l2 (q ++ vr now (w_rs (tell true down c w1))) (tell true down c w1)).
  { intros c w1 Hc Hi E1 E2 E3. destruct (@tell_open A A E counted O X true down c w1 E3) as (rs2 & -> & R3 & R4).
    assert (Ec : closes down c tr1 = true) by (destruct Hc; subst; auto).
    unfold P. wcbn. rewrite E1, E2 in *. rewrite Ec in R4. rewrite Ec. split; [apply Forall_app; auto|].
    rewrite vr_app, R2, R4. cbn [app andb]. split; [|split; [|discriminate]].
    - rewrite <- Ec. apply core_out; auto. cbn [observed]. split; [apply (core_isopen C1); auto|].
      assert (L : length (values tr1) = length (pushes tr1)).
      { rewrite V1, U1. rewrite <- (map_length snd (pushes (w_tr w))). apply skipn_none; auto. rewrite Hs1. apply Z.eqb_eq in H1. rewrite L4 in H1.
        destruct ps; auto. cbn [length] in H1. lia. }
      destruct Hc; subst c; (split; [apply in_or_app; auto|auto]).
    - apply shapes_more; auto. }
  destruct (ct_done (w_st w)) eqn:Hdone.
  { apply Hend; auto. apply L7; auto. }
  destruct (ct_off (w_st w)) eqn:Hoff.
  { apply Hend; auto. }
  unfold P. wcbn. split; [exact R1|]. rewrite R2, app_nil_r. split; auto.
Qed.

Lemma Hbegin now l q (w : W) u : P None now l q w -> Forall (fun x => fst x = true) l ->
  P (Some u) (Nat.max now u) (map (fun x => (false, snd x)) l) q (note (XTick u) w).
Proof.
  intros (HC & [Sh1 Sh2] & HL) F.
  assert (El : l = []).
  { destruct l as [|y l]; auto. exfalso. apply Forall_inv in Sh1. apply Forall_inv in F. destruct Sh1. congruence. }
  subst l. unfold P. wcbn. split; [|split].
  - apply core_begin; simpl; auto.
  - split; auto.
  - intros Hs. cbn [map]. eapply live_same; simpl; eauto.
Qed.

Lemma Hend t now l (w : W) : P (Some t) now l [] w -> Forall (fun x => fst x = true) l -> P None now l [] (note XEnd w).
Proof.
  intros (HC & Sh & HL) F.
  assert (El : l = []).
  { destruct l as [|y l]; auto. exfalso. destruct Sh as [Sh1 _]. apply Forall_inv in Sh1. apply Forall_inv in F. destruct Sh1. congruence. }
  subst l. unfold P. wcbn. split; [|split; auto].
  - apply (@core_end _ _ _ _ _ _ _ t); auto. simpl. intros Ho. apply (c_open HC) in Ho.
    destruct (HL Ho) as [(ol & oq & ps & L0 & L1 & L2 & L3 & L4 & L5) L6 L7 L8 L9].
    destruct ol; [|discriminate]. destruct oq; [|discriminate]. destruct ps; [|discriminate].
    rewrite <- (map_length snd (pushes (w_tr w))). apply skipn_none; auto.
  - intros Hs. eapply live_same; simpl; eauto.
Qed.

Lemma HS ph now l wk q (w : W) : P ph now l (QS wk :: q) w -> owned wk = true -> P ph now (l ++ [(false, wk)]) q w.
Proof.
  intros (HC & [Sh1 Sh2] & HL) _. inversion Sh2; subst. split; [auto|split].
  - split; auto. apply Forall_app; split; auto.
  - intros Hs. destruct (HL Hs) as [(ol & oq & ps & L0 & L1 & L2 & L3 & L4 & L5) L6 L7 L8 L9]. split; auto.
    destruct oq as [|o oq]; [discriminate|]. cbn [map] in L1. injection L1 as -> L1.
    exists (ol ++ [o]), oq, ps. rewrite L0, map_app, <- app_assoc. cbn. auto 6.
Qed.
Lemma HC ph now l q (w : W) : P ph now l (QC _ _ :: q) w -> P ph now [] q w.
Proof.
  intros (HC & [Sh1 Sh2] & HL). inversion Sh2; subst. split; [auto|split; [split; auto|]].
  intros Hs. destruct (HL Hs) as [(ol & oq & ps & L0 & L1 & L2 & L3 & L4 & L5) L6 L7 L8 L9].
  destruct oq; discriminate.
Qed.
Lemma Hinit : P None 0 [] [] (mkW (t_new T) false false false false [] []).
Proof.
  unfold P. wcbn. split; [apply core_init|]. split; [split; constructor|].
  intros _. split; cbn; auto; try discriminate; try tauto.
  exists [], [], []. repeat split; auto; cbn. intros [|]; discriminate.
Qed.

Theorem observe_on_ok fuel depth h m : syss T down user fuel (start T depth) h = Fine m ->
  let tr := w_tr (m_world m) in
  always (observed down) tr /\ answered down (@errors A E) tr /\
  (open down tr -> In (XUp Cmp) tr -> length (values tr) < length (pushes tr)).
Proof.
  intros H.
  destruct (@lift_any _ _ _ _ _ _ T down user P Hclear Hcmd Hrun Hbegin Hend HS HC Hinit _ _ _ _ H) as (l & q & HP & F).
  destruct HP as (HC & Sh & HL). split; [apply (c_good HC)|split; [apply (c_ans HC)|]].
  intros Ho Hc. apply (c_open HC) in Ho. destruct (HL Ho) as [(ol & oq & ps & L0 & L1 & L2 & L3 & L4 & L5) L6 L7 L8 L9].
  apply L9 in Hc. assert (N := L5 (or_intror Hc)). rewrite <- L2 in N.
  rewrite <- (map_length snd (pushes (w_tr (m_world m)))).
  destruct (Nat.lt_ge_cases (length (values (w_tr (m_world m)))) (length (map snd (pushes (w_tr (m_world m)))))); auto.
  rewrite skipn_all2 in N by auto. destruct N; auto.
Qed.
End Observe.
