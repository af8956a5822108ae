(** observe_on, with a destination that calls the source back, but not with errors. *)
From Coq Require Import ZArith.
From Verif Require Import Base SubscrModel SchedModel SchedProofs SchedExec TimeModel TimeLift TimeSpec TimeProofs
  TimeReModel TimeReSpec TimeReProofs.
Set Implicit Arguments.

Section Observe.
Variables A E X : Type.
Variable down : list (ncall A E) -> bool * list (req X).
Variable user : X -> nat -> list (tev A A E) -> X * bool * list (cmd A E X).
Variable answer : list (ncall A E) -> list (ncall A E).
Hypothesis errless : answers_errorless answer.
Notation O := (option A).
Notation W := (world A A E (loop_st counted A E) O X).
Notation K := (clo O X).
Notation T := (observe_on_loop X answer).
Notation core := (core down (observed down) (@errors A E)).
Notation clear_df := (mkDf [] false false false false).
Notation op := (@observe_on_op A E X).

Definition item (o : O) : work K := WImmediate (Some (KO o)).
Definition shapes (l : list (bool * work K)) (q : list (qop O X)) : Prop :=
  Forall (fun x : bool * work K => fst x = false /\ exists o, snd x = item o) l /\
  Forall (fun x : qop O X => match x with QS w => exists o, w = item o | QC _ _ => True end) q.

(** [due]: a task of the operator is being executed, and will see to it. *)
Record live (due : bool) l q (tr : list (tev A A E)) (s : counted) (over : bool) : Prop := mkLive {
  lv_pend : exists ol oq ps, l = map (fun o => (false, item o)) ol /\ q = map (fun o => QS (item o)) oq /\
    skipn (length (values tr)) (map snd (pushes tr)) = ps /\
    ol ++ oq = map Some ps ++ (if ct_done s then [None] else []) /\ ct_n s = Z.of_nat (length ps) /\
    (ct_off s = true \/ ct_done s = true -> due = true \/ ps <> []);
  lv_len : length (values tr) <= length (map snd (pushes tr));
  lv_done : ct_done s = true -> In (XUp Cmp) tr /\ over = true;
  lv_off : ct_off s = true -> ct_done s = false -> In (XUp Uns) tr;
  lv_cmp : In (XUp Cmp) tr -> ct_done s = true
}.
Definition P ph now l q (w : W) : Prop :=
  core ph now (w_tr w) (w_shut w) /\ shapes l q /\
  (w_shut w = false -> live false l q (w_tr w) (ctr w) (w_over w)) /\ rest w.

Lemma Hclear ph now l q (w : W) : P ph now l q w <-> P ph now l q (clear w).
Proof. unfold P. wcbn. split; intros (H1 & H2 & H3 & [R1 R2 R3]); repeat (split; auto). Qed.

Lemma live_same due l q tr s e o o' :
  match e with XSub | XTick _ | XEnd | XUp Uns | XUp (Err _) => True | _ => False end -> (o = true -> o' = true) ->
  live due l q tr s o -> live due l q (tr ++ [e]) s o'.
Proof.
  intros He Hoo [(ol & oq & ps & L0 & L1 & L2 & L3 & L4 & L5) L6 L7 L8 L9].
  assert (V : values (tr ++ [e]) = values tr) by (snocs; destruct e as [| | |[]|]; try destruct He; apply app_nil_r).
  assert (U : pushes (tr ++ [e]) = pushes tr) by (snocs; destruct e as [| | |[]|]; try destruct He; apply app_nil_r).
  split.
  - exists ol, oq, ps. rewrite V, U. auto 6.
  - rewrite V, U; auto.
  - intros Hd. destruct (L7 Hd). split; [apply in_or_app|]; auto.
  - intros. apply in_or_app. auto.
  - rewrite in_app_iff. simpl. intros [?|[->|[]]]; auto; destruct He.
Qed.

Lemma live_over due l q tr s o : live due l q tr s o -> (ct_n s =? 0)%Z = true -> length (values tr) = length (pushes tr).
Proof.
  intros [(ol & oq & ps & L0 & L1 & L2 & L3 & L4 & L5) L6 L7 L8] Hz. apply Z.eqb_eq in Hz.
  rewrite <- (map_length snd (pushes tr)). apply skipn_none; auto. rewrite L2. destruct ps; auto. simpl in L4. lia.
Qed.

Lemma shapes_more l q q' : shapes l q -> Forall (fun x : qop O X => match x with QS w => exists o, w = item o | QC _ _ => True end) q' -> shapes l (q ++ q').
Proof. intros [H1 H2] H3. split; auto. apply Forall_app; auto. Qed.


Lemma live_push due l q tr s a : live due l q tr s false ->
  live due l (q ++ [QS (item (Some a))]) (tr ++ [XUp (Nxt a)]) (mkCt (ct_done s) (ct_off s) (ct_n s + 1)) false.
Proof.
  intros [(ol & oq & ps & L0 & L1 & L2 & L3 & L4 & L5) L6 L7 L8 L9].
  assert (Hnd : ct_done s = false).
  { destruct (ct_done s); auto. destruct (L7 eq_refl). congruence. }
  rewrite Hnd in *. split; cbn [ct_done ct_off ct_n].
  - exists ol, (oq ++ [Some a]), (ps ++ [a]). split; auto. split. { rewrite L1, map_app. reflexivity. }
    snocs. rewrite map_app. cbn [map snd]. rewrite skipn_snoc by auto. rewrite L2. split; auto. split.
    { rewrite app_nil_r in *. rewrite app_assoc, L3, map_app. reflexivity. }
    split. { rewrite app_length, L4, Nat2Z.inj_add. reflexivity. }
    intros _. right. destruct ps; discriminate.
  - snocs. rewrite map_app, app_length. cbn. lia.
  - discriminate.
  - intros. apply in_or_app; auto.
  - rewrite in_app_iff. simpl. intros [?|[?|[]]]; auto. discriminate.
Qed.
Lemma live_cmp due l q tr s : live due l q tr s false -> (due = false -> ct_n s <> 0%Z) ->
  live due l (q ++ [QS (item None)]) (tr ++ [XUp Cmp]) (mkCt true true (ct_n s)) true.
Proof.
  intros [(ol & oq & ps & L0 & L1 & L2 & L3 & L4 & L5) L6 L7 L8 L9] Hz.
  assert (Hnd : ct_done s = false).
  { destruct (ct_done s); auto. destruct (L7 eq_refl). congruence. }
  rewrite Hnd in *. split; cbn [ct_done ct_off ct_n].
  - exists ol, (oq ++ [None]), ps. split; auto. split. { rewrite L1, map_app. reflexivity. }
    snocs. split; auto. split. { rewrite app_nil_r in *. rewrite app_assoc, L3. reflexivity. }
    split; auto. intros _. destruct due; auto. right. intros Z. rewrite Z in L4. apply (Hz eq_refl). exact L4.
  - snocs; auto.
  - split; auto. apply in_or_app; simpl; auto.
  - discriminate.
  - auto.
Qed.
Lemma live_uns due l q tr s o : live due l q tr s o -> (due = false -> ct_n s <> 0%Z) ->
  live due l q (tr ++ [XUp Uns]) (mkCt (ct_done s) true (ct_n s)) true.
Proof.
  intros [(ol & oq & ps & L0 & L1 & L2 & L3 & L4 & L5) L6 L7 L8 L9] Hz. split; cbn [ct_done ct_off ct_n].
  - exists ol, oq, ps. snocs. repeat (split; auto). intros _. destruct due; auto. right. intros Z. rewrite Z in L4. apply (Hz eq_refl). exact L4.
  - snocs; auto.
  - intros Hd. destruct (L7 Hd). split; auto. apply in_or_app; auto.
  - intros. apply in_or_app; simpl; auto.
  - rewrite in_app_iff. simpl. intros [?|[?|[]]]; auto. discriminate.
Qed.
Lemma vr_one now (o : O) : vr now [QSched 0 KImmediate (KO o)] = [QS (item o) : qop O X].
Proof. reflexivity. Qed.

(** *** In a task, after the destination was told something. *)
Definition dec (s : counted) : counted := mkCt (ct_done s) (ct_off s) (ct_n s - 1).
Definition mid ph now l q (w : W) : Prop :=
  core ph now (w_tr w) (w_shut w) /\ shapes l (q ++ vr now (w_rs w)) /\ Forall (@rq_ok O X) (w_rs w) /\ w_panic w = false /\
  (w_shut w = false -> dfr w = clear_df /\ live true l (q ++ vr now (w_rs w)) (w_tr w) (dec (ctr w)) (w_over w)).

Lemma hold_shut c (w : W) ph now l q : w_shut w = true -> mid ph now l q w -> mid ph now l q (hold c w).
Proof.
  intros Hs (H1 & H2 & H3 & H4 & H5). destruct (hold_eq c w) as (s & ->). unfold mid. lcbn.
  rewrite Hs in *. repeat (split; auto); discriminate.
Qed.

Lemma nested_mid ph now l q (w : W) c : (forall x, c <> Err x) -> mid ph now l q w -> mid ph now l q (nested op w c).
Proof.
  intros Hne HM. assert (HM' := HM). destruct HM as (HC & HSh & F & Hp & HL).
  unfold nested. destruct (w_born w); [|exact HM']. cbn [negb].
  assert (Hans : forall c0, (forall x, c0 <> Err x) -> errors (w_tr w) (XUp c0) = None) by (intros [|x0| |] H0; simpl; auto; destruct (H0 x0); auto).
  destruct (w_shut w) eqn:Hs.
  - (* closed *)
    assert (Mid : forall (w1 : W) e, w_shut w1 = true -> w_tr w1 = w_tr w ++ [XUp e] ->
      Forall (rq_ok (X:=X)) (w_rs w1) -> w_panic w1 = false -> shapes l (q ++ vr now (w_rs w1)) -> mid ph now l q w1).
    { intros w1 e E1 E2 E3 E4 E5. unfold mid. rewrite E1, E2. split; [|split; [auto|split; [auto|split; [auto|discriminate]]]].
      apply core_note; simpl; auto. }
    destruct c as [a|x| |]; try (destruct (w_over w); [exact HM'|]); cbn [observe_on_op].
    + apply Mid with (e := Nxt a); auto; lcbn.
      * apply Forall_app; split; auto. repeat constructor.
      * rewrite vr_app, app_assoc, vr_one. apply shapes_more; auto. repeat constructor. eexists; reflexivity.
    + edestruct Hne; eauto.
    + match goal with |- context [if ?b then _ else _] => destruct b end; [apply hold_shut; [exact Hs|]|]; apply Mid with (e := Cmp); auto; lcbn.
      * apply Forall_app; split; auto. repeat constructor.
      * rewrite vr_app, app_assoc, vr_one. apply shapes_more; auto. repeat constructor. eexists; reflexivity.
    + match goal with |- context [if ?b then _ else _] => destruct b end; [apply Mid with (e := Uns); auto|].
      match goal with |- context [if ?b then _ else _] => destruct b end; [apply hold_shut; [exact Hs|]|]; apply Mid with (e := Uns); auto.
  - destruct (HL eq_refl) as (Hd & HV).
    assert (Hn : (ct_n (ctr w) =? 0)%Z = false).
    { destruct HV as [(ol & oq & ps & L0 & L1 & L2 & L3 & L4 & L5) L6 L7 L8 L9]. cbn in L4. apply Z.eqb_neq. lia. }
    destruct c as [a|x| |]; try (destruct (w_over w) eqn:Hov; [exact HM'|]); cbn [observe_on_op].
    + (* a value *)
      unfold mid. lcbn. rewrite Hs, vr_app, app_assoc, vr_one. split; [apply core_note; simpl; auto|].
      split. { apply shapes_more; auto. repeat constructor. eexists; reflexivity. }
      split. { apply Forall_app; split; auto. repeat constructor. }
      split; [auto|]. intros _. split; [exact Hd|]. rewrite Hov.
      match goal with |- live _ _ _ _ ?s _ => replace s with
        (mkCt (ct_done (dec (lp_ct (w_st w)))) (ct_off (dec (lp_ct (w_st w)))) (ct_n (dec (lp_ct (w_st w))) + 1))
        by (unfold dec; cbn; f_equal; lia) end.
      apply live_push; auto.
    + edestruct Hne; eauto.
    + (* completion *)
      lcbn. rewrite Hn. unfold mid. lcbn. rewrite Hs, vr_app, app_assoc, vr_one. split; [apply core_note; simpl; auto|].
      split. { apply shapes_more; auto. repeat constructor. eexists; reflexivity. }
      split. { apply Forall_app; split; auto. repeat constructor. }
      split; [auto|]. intros _. split; [exact Hd|]. apply (live_cmp HV). discriminate.
    + (* unsubscribing *)
      assert (Hf : flagged (set_over (note (XUp Uns) w)) = false) by (unfold flagged; lcbn; rewrite Hd; auto).
      rewrite Hf. lcbn. rewrite Hn. unfold mid. lcbn. rewrite Hs. split; [apply core_note; simpl; auto|].
      split; [auto|split; [auto|split; [auto|]]]. intros _. split; [exact Hd|]. apply (live_uns HV). discriminate.
Qed.
Lemma nested_shut (w : W) c : w_shut (nested op w c) = w_shut w.
Proof.
  assert (H : forall c (w1 : W), w_shut (hold c w1) = w_shut w1) by (intros c0 w1; destruct (hold_eq c0 w1) as (s & ->); auto).
  unfold nested. destruct (negb (w_born w)); auto.
  destruct c; try destruct (w_over w); auto; cbn [observe_on_op]; rewrite ?H; auto;
  repeat match goal with |- context [if ?b then _ else _] => destruct b end; rewrite ?H; auto.
Qed.
Lemma fold_mid ph now l q cs : (forall x, ~ In (Err x) cs) -> forall w : W, mid ph now l q w ->
  mid ph now l q (fold_left (nested op) cs w) /\ w_shut (fold_left (nested op) cs w) = w_shut w.
Proof.
  induction cs as [|c cs IH]; intros Hne w H; simpl; auto.
  assert (Hc : forall x, c <> Err x) by (intros x ->; apply (Hne x); simpl; auto).
  destruct (IH (fun x I => Hne x (or_intror I)) _ (@nested_mid _ _ _ _ _ c Hc H)) as [H1 H2].
  split; auto. rewrite H2. apply nested_shut.
Qed.
Notation hit := (hit op answer (tell true down)).
Notation settle := (settle op answer (tell true down)).

Lemma settle_closed ph now l q (w : W) : mid ph now l q w -> w_shut w = true ->
  Forall (@rq_ok O X) (w_rs (settle w)) /\ P ph now l (q ++ vr now (w_rs (settle w))) (settle w).
Proof.
  intros (H1 & H2 & H3 & H4 & H5) Hs. destruct (settle_shut op answer true down w Hs) as (s & -> & Hq).
  unfold P. lcbn. split; [auto|]. split; [auto|]. split; [auto|]. split; [congruence|]. split; lcbn; auto.
Qed.

(** The destination is told the end. *)
Lemma hit_end c ph now l q (w : W) : core ph now (w_tr w) false -> w_shut w = false -> shapes l (q ++ vr now (w_rs w)) ->
  Forall (@rq_ok O X) (w_rs w) -> w_panic w = false -> (forall a, c <> Nxt a) ->
  observed down (w_tr w) (XOut c) -> mid ph now l q (hit c w) /\ w_shut (hit c w) = true.
Proof.
  intros HC Hs HSh F Hp Hc Hg. unfold TimeReModel.hit. rewrite Hs.
  assert (Hcl : closes down c (w_tr w) = true) by (destruct c; auto; edestruct Hc; eauto).
  destruct (@tell_open A A E (loop_st counted A E) O X true down c w Hs) as (rs & Ht & R1 & R2). rewrite Hcl in Ht, R2.
  assert (M : mid ph now l q (tell true down c w)).
  { rewrite Ht. unfold mid. lcbn. rewrite vr_app, R2, app_assoc. split; [|split; [|split; [|split; [auto|discriminate]]]].
    - rewrite <- Hcl. apply core_out; auto.
    - apply shapes_more; auto. repeat constructor.
    - apply Forall_app; auto. }
  destruct (fold_mid _ (errless (outs (w_tr (tell true down c w)))) M) as [M1 M2]. split; [exact M1|].
  cbv zeta. rewrite M2, Ht. auto.
Qed.

Notation wind_up := (wind_up op answer (fun n => n - 1)%Z (tell true down)).
Lemma mid_after ph now l q (w : W) : mid ph now l q w ->
  Forall (@rq_ok O X) (w_rs (wind_up w)) /\ P ph now l (q ++ vr now (w_rs (wind_up w))) (wind_up w).
Proof.
  intros HM. unfold TimeReModel.wind_up. cbv zeta. set (s := ctr w). set (w2 := set_ct (mkCt (ct_done s) (ct_off s) (ct_n s - 1)) w).
  assert (Hs2 : w_shut w2 = w_shut w) by reflexivity.
  destruct HM as (HC & HSh & F & Hp & HL).
  destruct (w_shut w) eqn:Hs.
  { rewrite Hs2. cbn [negb]. rewrite !andb_false_r. apply settle_closed; auto.
    unfold w2, mid. lcbn. rewrite Hs. repeat (split; auto); discriminate. }
  rewrite Hs2. cbn [negb]. rewrite !andb_true_r.
  destruct (HL eq_refl) as (Hd & HV).
  assert (Ends : forall c, c = Cmp \/ c = Uns -> In (XUp c) (w_tr w) -> (ct_n s =? 1)%Z = true ->
    Forall (@rq_ok O X) (w_rs (settle (hit c w2))) /\ P ph now l (q ++ vr now (w_rs (settle (hit c w2)))) (settle (hit c w2))).
  { intros c Hc Hi Hn. destruct (@hit_end c ph now l q w2) as [M1 M2]; auto.
    - intros a ->. destruct Hc; discriminate.
    - assert (L : length (values (w_tr w)) = length (pushes (w_tr w))).
      { apply (live_over HV). unfold dec. lcbn. fold s. apply Z.eqb_eq in Hn. apply Z.eqb_eq. lia. }
      unfold w2. lcbn. destruct Hc; subst c; cbn; (split; [apply (core_isopen HC); auto|auto]).
    - apply settle_closed; auto. }
  assert (Stay : (ct_n s =? 1)%Z = false \/ (ct_done s = false /\ ct_off s = false) ->
    Forall (@rq_ok O X) (w_rs (settle w2)) /\ P ph now l (q ++ vr now (w_rs (settle w2))) (settle w2)).
  { intros Hc. rewrite (settle_none op answer true down w2) by (unfold w2; lcbn; rewrite Hd; auto).
    unfold P. split; [exact F|]. rewrite Hs2. split; [exact HC|]. split; [exact HSh|]. split.
    - intros _. unfold w2. lcbn. destruct HV as [(ol & oq & ps & L0 & L1 & L2 & L3 & L4 & L5) L6 L7 L8 L9].
      unfold dec in *. fold s in L3, L4, L5, L7, L8, L9. split; lcbn; auto.
      exists ol, oq, ps. repeat (split; auto). intros Hx. right. intros Z. rewrite Z in L4. cbn in L4.
      destruct Hc as [Hc|[Hc1 Hc2]]; [apply Z.eqb_neq in Hc; lia|destruct Hx; congruence].
    - unfold w2. split; lcbn; [rewrite Hd; auto|auto|]. unfold flagged. lcbn. rewrite Hd. discriminate. }
  destruct (ct_n s =? 1)%Z eqn:Hn; rewrite ?andb_true_r, ?andb_false_r; [|apply Stay; auto].
  destruct (ct_done s) eqn:Hdo; [apply Ends; auto; apply (lv_done HV); exact Hdo|].
  destruct (ct_off s) eqn:Hof; [apply Ends; auto; apply (lv_off HV); auto|]. apply Stay; auto.
Qed.

Lemma rest_same (w w' : W) : rest w -> w_st w' = mkLp (ctr w') (dfr w) -> w_shut w' = w_shut w -> w_panic w' = w_panic w -> rest w'.
Proof.
  intros [R1 R2 R3] E1 E2 E3. unfold flagged in *. split; unfold flagged, dfr in *; rewrite ?E1, ?E2, ?E3; auto.
Qed.
Lemma rest_shut (w : W) : df_q (dfr w) = [] -> w_panic w = false -> w_shut w = true -> rest w.
Proof. intros. split; auto. Qed.

Lemma Hcmd ph now l q (w : W) c : is_up c -> Forall (@rq_ok O X) (w_rs w) ->
  P ph now l (q ++ vr now (w_rs w)) w ->
  Forall (@rq_ok O X) (w_rs (do_cmd T down w c)) /\
  P ph now l (q ++ vr now (w_rs (do_cmd T down w c))) (do_cmd T down w c).
Proof.
  intros Hc F HP. assert (HP' := HP). destruct HP as (HC & HSh & HL & HR).
  assert (St : w_st w = mkLp (ctr w) (dfr w)) by (unfold ctr, dfr; destruct (w_st w); auto).
  destruct c as [|c|r]; [| |destruct Hc].
  - cbn [do_cmd]. destruct (w_born w); [split; auto|]. cbn [observe_on_loop t_sub]. split; [exact F|]. unfold P. wcbn.
    split; [apply core_note; simpl; auto|]. split; [auto|].
    split; [intros Hs; eapply live_same; simpl; eauto; apply HL; auto|]. apply (rest_same _ HR); auto.
  - cbn [do_cmd]. unfold up. destruct (w_born w); [|split; auto]. cbn [negb].
    (* telling the end when the destination is closed, and when it is open *)
    assert (Closed : forall o c (w1 : W), w_shut w = true -> w_shut w1 = true -> rest w1 -> w_tr w1 = w_tr w ++ [XUp c] ->
      Forall (@rq_ok O X) (w_rs w1) -> shapes l (q ++ vr now (w_rs w1)) ->
      Forall (@rq_ok O X) (w_rs (shared op answer (tell true down) o w1)) /\
      P ph now l (q ++ vr now (w_rs (shared op answer (tell true down) o w1))) (shared op answer (tell true down) o w1)).
    { intros o e w1 E0 E1 E2 E3 E4 E5. destruct (shared_shut op answer true down o E2 E1) as (s & -> & Hq).
      unfold P. lcbn. rewrite E1, E3. split; auto. rewrite E0 in HC. split; [apply core_note; simpl; auto|]. split; [auto|].
      split; [discriminate|]. apply rest_shut; auto; lcbn; apply (r_panic E2). }
    assert (Ends : forall o (w1 : W), w_shut w = false -> w_shut w1 = false -> rest w1 -> w_tr w1 = w_tr w ++ [XUp o] ->
      Forall (@rq_ok O X) (w_rs w1) -> shapes l (q ++ vr now (w_rs w1)) -> (forall a, o <> Nxt a) ->
      (o = Cmp \/ o = Uns -> (ct_n (ctr w) =? 0)%Z = true) ->
      Forall (@rq_ok O X) (w_rs (shared op answer (tell true down) o w1)) /\
      P ph now l (q ++ vr now (w_rs (shared op answer (tell true down) o w1))) (shared op answer (tell true down) o w1)).
    { intros o w1 E0 E1 E2 E3 E4 E5 E6 E7. destruct (shared_open op answer true down E2 E1 E6) as (s & -> & Hq).
      destruct (@tell_open A A E (loop_st counted A E) O X true down o (set_df s w1) E1) as (rs & -> & R1 & R2).
      revert R2. unfold P. lcbn. rewrite E3.
      assert (Hcl : closes down o (w_tr w ++ [XUp o]) = true) by (destruct o; auto; edestruct E6; eauto).
      rewrite Hcl. intros R2. split; [apply Forall_app; auto|]. rewrite vr_app, R2, app_assoc. rewrite E0 in HC.
      assert (Op : open down (w_tr w ++ [XUp o])) by (rewrite open_same by discriminate; apply (core_isopen HC); auto).
      split; [|split; [|split; [discriminate|]]].
      - rewrite <- Hcl. destruct o as [a|x| |]; [edestruct E6; eauto| | |].
        + apply (@core_ans A A E X down _ (@errors A E)); simpl; auto. split; [exact Op|eauto].
        + apply core_out; [apply core_note; simpl; auto| |auto]. cbn. split; [exact Op|].
          split; [apply in_or_app; simpl; auto|]. snocs. apply (live_over (HL E0)). apply E7; auto.
        + apply core_out; [apply core_note; simpl; auto| |auto]. cbn. split; [exact Op|].
          split; [apply in_or_app; simpl; auto|]. snocs. apply (live_over (HL E0)). apply E7; auto.
      - apply shapes_more; auto. repeat constructor.
      - apply rest_shut; auto. lcbn. apply (r_panic E2). }
    destruct c as [a|x| |]; try (destruct (w_over w) eqn:Hov; [split; auto; fail|]); cbn [observe_on_loop t_up t_torn];
      set (tl := shared op answer (tell true down)) in *; unfold observe_on_op.
    + (* a value *)
      lcbn. split. { apply Forall_app; split; auto. repeat constructor. }
      rewrite vr_app, app_assoc, vr_one. unfold P. lcbn. split; [apply core_note; simpl; auto|]. split.
      { apply shapes_more; auto. repeat constructor. eexists; reflexivity. }
      split; [intros Hs; rewrite Hov; apply live_push; apply HL; exact Hs|]. apply (rest_same _ HR); auto.
    + (* an error *)
      destruct (w_shut w) eqn:Hs; [apply Closed with (c := Err x)|apply Ends]; auto; lcbn; try apply (rest_same _ HR); auto; try discriminate.
      intros [|]; discriminate.
    + (* completion *)
      lcbn. destruct (ct_n (lp_ct (w_st w)) =? 0)%Z eqn:Hz.
      * destruct (w_shut w) eqn:Hs; [apply Closed with (c := Cmp)|apply Ends]; auto; try discriminate; apply (rest_same _ HR); auto.
      * lcbn. split. { apply Forall_app; split; auto. repeat constructor. }
        rewrite vr_app, app_assoc, vr_one. unfold P. lcbn. split; [apply core_note; simpl; auto|]. split.
        { apply shapes_more; auto. repeat constructor. eexists; reflexivity. }
        split; [|apply (rest_same _ HR); auto]. intros Hs. apply live_cmp; [apply HL; exact Hs|]. intros _. apply Z.eqb_neq. exact Hz.
    + (* unsubscribing *)
      assert (HR1 : rest (set_over (note (XUp Uns) w))) by (apply (rest_same _ HR); auto).
      rewrite (rest_closed HR1). lcbn. destruct (w_shut w) eqn:Hs.
      { unfold P. lcbn. rewrite Hs. split; auto. split; [apply core_note; simpl; auto|]. split; [auto|]. split; [discriminate|exact HR1]. }
      destruct (ct_n (lp_ct (w_st w)) =? 0)%Z eqn:Hz.
      { apply Ends; auto; [|discriminate]. apply (rest_same _ HR); auto. }
      unfold P. lcbn. rewrite Hs. split; auto. split; [apply core_note; simpl; auto|]. split; [auto|].
      split; [|apply (rest_same _ HR); auto]. intros _. eapply live_uns; [apply HL; reflexivity|]. intros _. apply Z.eqb_neq. exact Hz.
Qed.

Lemma Hrun fuel t now l1 wk l2 q (w : W) wk' r w' rs :
  P (Some t) now (l1 ++ (false, wk) :: l2) q w -> Forall (fun x => fst x = true) l1 -> owned wk = true ->
  wtick (run T down user) fuel wk t w = Some (wk', r, w', rs) ->
  Forall (@rq_ok O X) rs /\
  P (Some t) now (l1 ++ (if r then [] else [(true, wk')]) ++ l2) (q ++ vr now rs) w'.
Proof.
  intros (HC & [Sh1 Sh2] & HL & HR) Ht _.
  assert (El : l1 = []).
  { destruct l1 as [|y l1]; auto. exfalso. simpl in Sh1. apply Forall_inv in Sh1. apply Forall_inv in Ht. destruct Sh1. congruence. }
  subst l1. cbn [app] in *. inversion Sh1 as [|? ? [_ (o & Ho)] Sh3]; subst. cbn in Ho. subst wk.
  assert (Sh4 : shapes l2 q) by (split; auto).
  assert (St : w_st w = mkLp (ctr w) (dfr w)) by (unfold ctr, dfr; destruct (w_st w); auto).
  cbn [wtick item run observe_on_loop t_run t_torn].
  intros Y; injection Y as <- <- <- <-. cbn [app].
  destruct (w_shut w) eqn:Hs.
  { destruct o as [a|].
    - unfold deliver_loop. cbn [clear w_shut]. rewrite Hs. apply mid_after. unfold mid. lcbn. rewrite Hs. cbn [vr flat_map]. rewrite app_nil_r.
      split; [auto|]. split; [auto|]. split; [constructor|]. split; [apply (r_panic HR)|discriminate].
    - unfold P. lcbn. rewrite Hs. cbn [vr flat_map]. rewrite app_nil_r. split; [constructor|]. split; [auto|]. split; [auto|]. split; [discriminate|].
      apply (rest_same _ HR); auto. }
  destruct (HL eq_refl) as [(ol & oq & ps & L0 & L1 & L2 & L3 & L4 & L5) L6 L7 L8 L9].
  destruct ol as [|o1 ol]; [discriminate|]. cbn [map] in L0. injection L0 as <- L0.
  cbn [app] in L3.
  destruct ps as [|a ps].
  { exfalso. cbn [map app] in L3. destruct (ct_done (ctr w)); [|discriminate]. destruct (L5 (or_intror eq_refl)) as [|Z]; [discriminate|apply Z; auto]. }
  cbn [map app] in L3. injection L3 as -> L3.
  assert (Hn := skipn_nth _ _ L2). assert (Hs1 := skipn_next _ _ L2).
  assert (Hg : observed down (w_tr w) (XOut (Nxt a))).
  { split; [apply (core_isopen HC); auto|]. split; auto. apply (c_tick HC). }
  assert (Hlen : S (length (values (w_tr w))) <= length (map snd (pushes (w_tr w)))).
  { apply nth_error_Some. rewrite Hn. discriminate. }
  assert (M : mid (Some t) now l2 q (tell true down (Nxt a) (clear w))).
  { destruct (@tell_open A A E (loop_st counted A E) O X true down (Nxt a) (clear w) Hs) as (rs & -> & R1 & R2).
    revert R2. unfold mid. lcbn. cbn [app]. rewrite andb_true_r. intros R2.
    assert (Hd0 : lp_df (w_st w) = clear_df).
    { destruct HR as [R3 R4 R5]. unfold flagged in R5. lcbn. destruct (lp_df (w_st w)) as [dq [] [] [] []];
      cbn in *; subst; rewrite ?Hs in R5; try discriminate (R5 eq_refl); auto. }
    split; [apply core_out; auto|]. split; [rewrite R2; apply shapes_more; auto; destruct (closes down (Nxt a) (w_tr w)); repeat constructor|].
    split; [auto|]. split; [apply (r_panic HR)|]. intros Hcl. rewrite Hcl in R2. split; [exact Hd0|]. rewrite R2, app_nil_r.
    assert (V1 : length (values (w_tr w ++ [XOut (Nxt a)])) = S (length (values (w_tr w)))) by (snocs; rewrite app_length; simpl; lia).
    assert (U1 : pushes (w_tr w ++ [XOut (Nxt a)]) = pushes (w_tr w)) by (snocs; auto).
    unfold dec. split; lcbn.
    - exists ol, oq, ps. rewrite V1, U1, L4. repeat (split; auto). simpl length. lia.
    - rewrite V1, U1. auto.
    - intros Hd. destruct (L7 Hd). split; auto. apply in_or_app; auto.
    - intros. apply in_or_app; auto.
    - rewrite in_app_iff. simpl. intros [?|[?|[]]]; auto; discriminate. }
  unfold deliver_loop. apply mid_after. cbn [clear w_shut]. rewrite Hs. unfold TimeReModel.hit. cbn [clear w_shut]. rewrite Hs.
  apply fold_mid; [apply errless|exact M].
Qed.

Lemma Hbegin now l q (w : W) u : P None now l q w -> Forall (fun x => fst x = true) l ->
  P (Some u) (Nat.max now u) (map (fun x => (false, snd x)) l) q (note (XTick u) w).
Proof.
  intros (HC & [Sh1 Sh2] & HL & HR) F.
  assert (El : l = []).
  { destruct l as [|y l]; auto. exfalso. apply Forall_inv in Sh1. apply Forall_inv in F. destruct Sh1. congruence. }
  subst l. unfold P. wcbn. split; [|split; [|split]].
  - apply core_begin; simpl; auto.
  - split; auto.
  - intros Hs. cbn [map]. eapply live_same; simpl; eauto.
  - apply (rest_same _ HR); auto. lcbn. destruct (w_st w); auto.
Qed.

Lemma Hend t now l (w : W) : P (Some t) now l [] w -> Forall (fun x => fst x = true) l -> P None now l [] (note XEnd w).
Proof.
  intros (HC & Sh & HL & HR) F.
  assert (El : l = []).
  { destruct l as [|y l]; auto. exfalso. destruct Sh as [Sh1 _]. apply Forall_inv in Sh1. apply Forall_inv in F. destruct Sh1. congruence. }
  subst l. unfold P. wcbn. split; [|split; [auto|split]].
  - apply (@core_end _ _ _ _ _ _ _ t); auto. simpl. intros Ho. apply (c_open HC) in Ho.
    destruct (HL Ho) as [(ol & oq & ps & L0 & L1 & L2 & L3 & L4 & L5) L6 L7 L8 L9].
    destruct ol; [|discriminate]. destruct oq; [|discriminate]. destruct ps; [|discriminate].
    rewrite <- (map_length snd (pushes (w_tr w))). apply skipn_none; auto.
  - intros Hs. eapply live_same; simpl; eauto.
  - apply (rest_same _ HR); auto. lcbn. destruct (w_st w); auto.
Qed.

Lemma HS ph now l wk q (w : W) : P ph now l (QS wk :: q) w -> owned wk = true -> P ph now (l ++ [(false, wk)]) q w.
Proof.
  intros (HC & [Sh1 Sh2] & HL & HR) _. inversion Sh2; subst. split; [auto|split; [|split; [|exact HR]]].
  - split; auto. apply Forall_app; split; auto.
  - intros Hs. destruct (HL Hs) as [(ol & oq & ps & L0 & L1 & L2 & L3 & L4 & L5) L6 L7 L8 L9]. split; auto.
    destruct oq as [|o oq]; [discriminate|]. cbn [map] in L1. injection L1 as -> L1.
    exists (ol ++ [o]), oq, ps. rewrite L0, map_app, <- app_assoc. cbn. auto 6.
Qed.
Lemma HC ph now l q (w : W) : P ph now l (QC _ _ :: q) w -> P ph now [] q w.
Proof.
  intros (HC & [Sh1 Sh2] & HL & HR). inversion Sh2; subst. split; [auto|split; [split; auto|split; [|exact HR]]].
  intros Hs. destruct (HL Hs) as [(ol & oq & ps & L0 & L1 & L2 & L3 & L4 & L5) L6 L7 L8 L9].
  destruct oq; discriminate.
Qed.
Lemma Hinit : P None 0 [] [] (mkW (t_new T) false false false false [] []).
Proof.
  unfold P. wcbn. split; [apply core_init|]. split; [split; constructor|].
  split; [|split; cbn; auto; discriminate]. intros _. split; cbn; auto; try discriminate; try tauto.
  exists [], [], []. repeat split; auto; cbn. intros [|]; discriminate.
Qed.

Theorem observe_on_loop_ok fuel depth h m : syss T down user fuel (start T depth) h = Fine m ->
  let tr := w_tr (m_world m) in
  always (observed down) tr /\ answered down (@errors A E) tr /\
  (open down tr -> In (XUp Cmp) tr -> length (values tr) < length (pushes tr)) /\
  w_panic (m_world m) = false.
Proof.
  intros H.
  destruct (@lift_any _ _ _ _ _ _ T down user P Hclear Hcmd Hrun Hbegin Hend HS HC Hinit _ _ _ _ H) as (l & q & HP & F).
  destruct HP as (HC & Sh & HL & HR). split; [apply (c_good HC)|split; [apply (c_ans HC)|split; [|apply (r_panic HR)]]].
  intros Ho Hc. apply (c_open HC) in Ho. destruct (HL Ho) as [(ol & oq & ps & L0 & L1 & L2 & L3 & L4 & L5) L6 L7 L8 L9].
  apply L9 in Hc. destruct (L5 (or_intror Hc)) as [N|N]; [discriminate|]. rewrite <- L2 in N.
  rewrite <- (map_length snd (pushes (w_tr (m_world m)))).
  destruct (Nat.lt_ge_cases (length (values (w_tr (m_world m)))) (length (map snd (pushes (w_tr (m_world m)))))); auto.
  rewrite skipn_all2 in N by auto. destruct N; auto.
Qed.
End Observe.
