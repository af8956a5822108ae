(** delay, with a destination that calls the source back. *)
From Coq Require Import ZArith.
From Verif Require Import Base SubscrModel SchedModel SchedProofs SchedExec TimeModel TimeLift TimeSpec TimeProofs
  TimeReModel TimeReSpec TimeReProofs.
Set Implicit Arguments.

Section Delay.
Variables A E X : Type.
Variable down : list (ncall A E) -> bool * list (req X).
Variable user : X -> nat -> list (tev A A E) -> X * bool * list (cmd A E X).
Variable answer : list (ncall A E) -> list (ncall A E).
Variable d : nat.
Notation W := (world A A E (loop_st counted A E) A X).
Notation K := (clo A X).
Notation T := (delay_loop X answer d).
Notation core := (core down (delayed_loop down d) (fun _ _ => None)).
Notation passed := (errors_pass down).
Notation clear_df := (mkDf [] false false false false).
Definition item (x : nat * A) (cur : nat) : work K := WDelayed (fst x) cur d (Some (KO (snd x))).
Definition shape (w : work K) : Prop := exists x cur, w = item x cur.
Definition shapes (l : list (bool * work K)) (q : list (qop A X)) : Prop :=
  Forall (fun x : bool * work K => shape (snd x)) l /\
  Forall (fun x : qop A X => match x with QS w => shape w | QC _ _ => True end) q.
(** It will be [now] in the eyes of the task when it is ticked. *)
Definition soon (ph : option nat) (now cur : nat) : Prop :=
  match ph with Some t => Nat.max cur t = now | None => cur = now end.
Definition active (ph : option nat) (now : nat) (y : bool * work K) (x : nat * A) : Prop :=
  exists cur, snd y = item x cur /\ if fst y then cur = now /\ now < fst x + d else soon ph now cur.
Definition queued (ph : option nat) (now : nat) (y : qop A X) (x : nat * A) : Prop :=
  exists cur, y = QS (item x cur) /\ soon ph now cur.

(** [due]: a task of the operator is being executed, and will see to it. *)
Record live (due : bool) (ph : option nat) (now : nat) l q (tr : list (tev A A E)) (s : counted) : Prop := mkLive {
  lv_pend : exists pl pq, Forall2 (active ph now) l pl /\ Forall2 (queued ph now) q pq /\
    skipn (length (values tr)) (pushes tr) = pl ++ pq /\ ct_n s = Z.of_nat (length (pl ++ pq)) /\
    (ct_off s = true \/ ct_done s = true -> due = true \/ pl ++ pq <> []);
  lv_len : length (values tr) <= length (pushes tr);
  lv_done : ct_done s = true <-> In (XUp Cmp) tr;
  lv_off : ct_off s = true -> ct_done s = false -> In (XUp Uns) tr
}.
Definition P ph now l q (w : W) : Prop :=
  core ph now (w_tr w) (w_shut w) /\ shapes l q /\ (w_shut w = false -> live false ph now l q (w_tr w) (ctr w)) /\
  rest w /\ passed (w_tr w).

Lemma Hclear ph now l q (w : W) : P ph now l q w <-> P ph now l q (clear w).
Proof. unfold P. wcbn. split; intros (H1 & H2 & H3 & [R1 R2 R3] & H4); repeat (split; auto). Qed.

Lemma live_same due ph now l q tr s e :
  match e with XSub | XTick _ | XEnd | XUp Uns | XUp (Err _) => True | _ => False end ->
  live due ph now l q tr s -> live due ph now l q (tr ++ [e]) s.
Proof.
  intros He [(pl & pq & L1 & L2 & L3 & L4 & L5) L6 L7 L8].
  assert (V : values (tr ++ [e]) = values tr) by (snocs; destruct e as [| | |[]|]; try destruct He; apply app_nil_r).
  assert (U : pushes (tr ++ [e]) = pushes tr) by (snocs; destruct e as [| | |[]|]; try destruct He; apply app_nil_r).
  split.
  - exists pl, pq. rewrite V, U. auto.
  - rewrite V, U; auto.
  - rewrite L7, in_app_iff. simpl. split; auto. intros [?|[->|[]]]; auto. destruct He.
  - intros. apply in_or_app. auto.
Qed.

Lemma live_over due ph now l q tr s : live due ph now l q tr s -> (ct_n s =? 0)%Z = true -> length (values tr) = length (pushes tr).
Proof.
  intros [(pl & pq & L1 & L2 & L3 & L4 & L5) L6 L7 L8] Hz. apply Z.eqb_eq in Hz.
  apply skipn_none; auto. rewrite L3. destruct (pl ++ pq); auto. simpl in L4. lia.
Qed.

Lemma live_push due ph now l q tr s a : soon ph now now -> now = clock tr -> live due ph now l q tr s ->
  live due ph now l (q ++ [QS (item (now, a) now)]) (tr ++ [XUp (Nxt a)]) (mkCt (ct_done s) (ct_off s) (ct_n s + 1)).
Proof.
  intros Hso Hc [(pl & pq & L1 & L2 & L3 & L4 & L5) L6 L7 L8]. split; cbn [ct_done ct_off ct_n].
  - exists pl, (pq ++ [(now, a)]). split; auto. split.
    { apply Forall2_app; auto. constructor; auto. exists now. split; auto. }
    snocs. rewrite skipn_snoc by auto. rewrite L3, <- app_assoc, <- Hc. split; auto. split.
    { rewrite app_assoc, app_length, L4, Nat2Z.inj_add. reflexivity. }
    intros _. right. rewrite app_assoc. destruct (pl ++ pq); discriminate.
  - snocs. rewrite app_length. simpl. lia.
  - rewrite L7, in_app_iff. simpl. split; auto. intros [?|[?|[]]]; auto. discriminate.
  - intros. apply in_or_app; auto.
Qed.

Lemma shapes_more l q q' : shapes l q -> Forall (fun x : qop A X => match x with QS w => shape w | QC _ _ => True end) q' -> shapes l (q ++ q').
Proof. intros [H1 H2] H3. split; auto. apply Forall_app; auto. Qed.

Lemma vr_one now a : vr now [QSched 0 (KDelayed d) (KO a)] = [QS (item (now, a) now)].
Proof. cbn. rewrite later_max. reflexivity. Qed.

Lemma soon_now ph now tr sh : core ph now tr sh -> soon ph now now.
Proof. intros [H _ _ _ _ _]. destruct ph; simpl; auto. lia. Qed.

Lemma item_inj x y c c' : item x c = item y c' -> x = y /\ c = c'.
Proof. unfold item. intros H. injection H as H1 H2 H3. destruct x, y; simpl in *. split; congruence. Qed.

(** *** In a task, after the destination was told something. *)
Definition dec (s : counted) : counted := mkCt (ct_done s) (ct_off s) (ct_n s - 1).
Definition mid ph now l q (w : W) : Prop :=
  core ph now (w_tr w) (w_shut w) /\ shapes l (q ++ vr now (w_rs w)) /\ Forall (@rq_ok A X) (w_rs w) /\ w_panic w = false /\
  (w_shut w = true -> passed (w_tr w)) /\
  (w_shut w = false ->
    (dfr w = clear_df /\ passed (w_tr w) /\ live true ph now l (q ++ vr now (w_rs w)) (w_tr w) (dec (ctr w))) \/
    (exists x, dfr w = mkDf [Err x] false false false true /\ owed down x (w_tr w) /\ ct_n (ctr w) = 0%Z /\ w_over w = true)).

Lemma hold_shut c (w : W) ph now l q : w_shut w = true -> mid ph now l q w -> mid ph now l q (hold c w).
Proof.
  intros Hs (H1 & H2 & H3 & H4 & H5 & H6). destruct (hold_eq c w) as (s & ->). unfold mid. lcbn.
  rewrite Hs in *. repeat (split; auto). discriminate.
Qed.

Lemma nested_mid ph now l q (w : W) c : mid ph now l q w -> mid ph now l q (nested (delay_op d) w c).
Proof.
  intros HM. assert (HM' := HM). destruct HM as (HC & HSh & F & Hp & Hsh & HL).
  unfold nested. destruct (w_born w); [|exact HM']. cbn [negb].
  destruct (w_shut w) eqn:Hs.
  - (* closed *)
    assert (Mid : forall (w1 : W) e, w_shut w1 = true -> w_tr w1 = w_tr w ++ [XUp e] ->
      Forall (rq_ok (X:=X)) (w_rs w1) -> w_panic w1 = false -> shapes l (q ++ vr now (w_rs w1)) -> mid ph now l q w1).
    { intros w1 e E1 E2 E3 E4 E5. unfold mid. rewrite E1, E2. split; [|split; [auto|split; [auto|split; [auto|split; [|discriminate]]]]].
      - apply core_note; simpl; auto.
      - intros _. apply passed_snoc; auto. intros x _ Ho. apply (c_open HC) in Ho. congruence. }
    destruct c as [a|x| |]; try (destruct (w_over w); [exact HM'|]); cbn [delay_op].
    + apply Mid with (e := Nxt a); auto; lcbn.
      * apply Forall_app; split; auto. repeat constructor.
      * rewrite vr_app, app_assoc, vr_one. apply shapes_more; auto. repeat constructor. exists (now, a), now. auto.
    + apply hold_shut; [exact Hs|]. apply Mid with (e := Err x); auto; lcbn.
      * apply Forall_app; split; [auto|repeat constructor].
      * rewrite vr_app, app_assoc. apply shapes_more; auto. repeat constructor.
    + match goal with |- context [if ?b then _ else _] => destruct b end; [apply hold_shut; [exact Hs|]|]; apply Mid with (e := Cmp); auto.
    + match goal with |- context [if ?b then _ else _] => destruct b end; [apply Mid with (e := Uns); auto|].
      match goal with |- context [if ?b then _ else _] => destruct b end; [apply hold_shut; [exact Hs|]|]; apply Mid with (e := Uns); auto.
  - destruct (HL eq_refl) as [(Hd & Hpa & HV)|(x & Hd & Hpa & Hn & Hov)].
    2: { (* an error is held back: the source can only be unsubscribed *)
      rewrite Hov. destruct c; try exact HM'. cbn [delay_op].
      assert (Hf : flagged (set_over (note (XUp Uns) w)) = true) by (unfold flagged; lcbn; rewrite Hd; auto).
      rewrite Hf. cbn [orb]. unfold mid. lcbn. rewrite Hs. split; [apply core_note; simpl; auto|].
      split; [auto|split; [auto|split; [auto|split; [discriminate|]]]]. intros _. right. exists x.
      unfold dfr, ctr in *. repeat (split; auto). apply owed_uns; auto. }
    assert (Hn : (ct_n (ctr w) =? 0)%Z = false).
    { destruct HV as [(pl & pq & L1 & L2 & L3 & L4 & L5) L6 L7 L8]. cbn in L4. apply Z.eqb_neq. lia. }
    assert (Hpn : forall c, (forall x, c <> Err x) -> passed (w_tr w ++ [XUp c])).
    { intros c0 Hc. apply passed_snoc; auto. intros x H. injection H as ->. destruct (Hc x); auto. }
    destruct c as [a|x| |]; try (destruct (w_over w) eqn:Hov; [exact HM'|]); cbn [delay_op].
    + (* a value *)
      unfold mid. lcbn. rewrite Hs, vr_app, app_assoc, vr_one. split; [apply core_note; simpl; auto|].
      split. { apply shapes_more; auto. repeat constructor. exists (now, a), now. auto. }
      split. { apply Forall_app; split; auto. repeat constructor. }
      split; [auto|]. split; [discriminate|]. intros _. left. split; [exact Hd|]. split; [apply Hpn; discriminate|].
      match goal with |- live _ _ _ _ _ _ ?s => replace s with
        (mkCt (ct_done (dec (ctr w))) (ct_off (dec (ctr w))) (ct_n (dec (ctr w)) + 1))
        by (unfold dec, ctr; cbn; f_equal; lia) end.
      apply live_push; auto; [apply (soon_now HC)|apply (c_clock HC)].
    + (* an error *)
      unfold hold, push, flagged. lcbn. unfold dfr in Hd. rewrite Hd. lcbn. cbn [orb app].
      unfold mid. lcbn. rewrite Hs, vr_app, app_assoc. split; [apply core_note; simpl; auto|].
      split. { apply shapes_more; auto. repeat constructor. }
      split. { apply Forall_app; split; [auto|repeat constructor]. }
      split; [auto|]. split; [discriminate|]. intros _. right. exists x. repeat (split; auto). apply owed_start; auto.
    + (* completion *)
      lcbn. unfold ctr in Hn. rewrite Hn. unfold mid. lcbn. rewrite Hs. split; [apply core_note; simpl; auto|].
      split; [auto|split; [auto|split; [auto|split; [discriminate|]]]]. intros _. left.
      split; [exact Hd|]. split; [apply Hpn; discriminate|].
      destruct HV as [(pl & pq & L1 & L2 & L3 & L4 & L5) L6 L7 L8]. unfold dec. split; lcbn.
      * exists pl, pq. snocs. repeat (split; auto).
      * snocs; auto.
      * split; auto. intros. apply in_or_app; simpl; auto.
      * discriminate.
    + (* unsubscribing *)
      assert (Hf : flagged (set_over (note (XUp Uns) w)) = false) by (unfold flagged; lcbn; rewrite Hd; auto).
      rewrite Hf. cbn [orb]. lcbn. destruct (ct_off (lp_ct (w_st w))) eqn:Ho.
      { unfold mid. lcbn. rewrite Hs. split; [apply core_note; simpl; auto|].
        split; [auto|split; [auto|split; [auto|split; [discriminate|]]]]. intros _. left.
        split; [exact Hd|]. split; [apply Hpn; discriminate|]. apply live_same; simpl; auto. }
      unfold ctr in Hn. rewrite Hn. unfold mid. lcbn. rewrite Hs. split; [apply core_note; simpl; auto|].
      split; [auto|split; [auto|split; [auto|split; [discriminate|]]]]. intros _. left.
      split; [exact Hd|]. split; [apply Hpn; discriminate|].
      destruct HV as [(pl & pq & L1 & L2 & L3 & L4 & L5) L6 L7 L8]. unfold dec. split; lcbn.
      * exists pl, pq. snocs. repeat (split; auto).
      * snocs; auto.
      * cbn in L7. rewrite L7, in_app_iff. simpl. split; auto. intros [?|[?|[]]]; auto. discriminate.
      * intros. apply in_or_app; simpl; auto.
Qed.
Lemma nested_shut (w : W) c : w_shut (nested (delay_op d) w c) = w_shut w.
Proof.
  assert (H : forall c (w1 : W), w_shut (hold c w1) = w_shut w1) by (intros c0 w1; destruct (hold_eq c0 w1) as (s & ->); auto).
  unfold nested. destruct (negb (w_born w)); auto.
  destruct c; try destruct (w_over w); auto; cbn [delay_op]; rewrite ?H; auto;
  repeat match goal with |- context [if ?b then _ else _] => destruct b end; rewrite ?H; auto.
Qed.
Lemma fold_mid ph now l q cs : forall w : W, mid ph now l q w ->
  mid ph now l q (fold_left (nested (delay_op d)) cs w) /\ w_shut (fold_left (nested (delay_op d)) cs w) = w_shut w.
Proof.
  induction cs as [|c cs IH]; intros w H; simpl; auto. destruct (IH _ (@nested_mid _ _ _ _ _ c H)) as [H1 H2].
  split; auto. rewrite H2. apply nested_shut.
Qed.
Notation hit := (hit (delay_op d) answer (tell true down)).
Notation settle := (settle (delay_op d) answer (tell true down)).

(** The end of it: nothing is told any more. *)
Lemma mid_closed n ph now l q (w : W) : mid ph now l q w -> w_shut w = true ->
  Forall (@rq_ok A X) (w_rs (apply_queue (delay_op d) answer (S (S n)) (tell true down) w)) /\
  P ph now l (q ++ vr now (w_rs (apply_queue (delay_op d) answer (S (S n)) (tell true down) w)))
    (apply_queue (delay_op d) answer (S (S n)) (tell true down) w).
Proof.
  intros (H1 & H2 & H3 & H4 & H5 & H6) Hs. destruct (apply_shut (delay_op d) answer true down n w Hs) as (s & -> & Hq).
  unfold P. lcbn. split; [auto|]. split; [auto|]. split; [auto|]. split; [congruence|]. split; [|auto].
  split; lcbn; auto.
Qed.

Lemma settle_closed ph now l q (w : W) : mid ph now l q w -> w_shut w = true ->
  Forall (@rq_ok A X) (w_rs (settle w)) /\ P ph now l (q ++ vr now (w_rs (settle w))) (settle w).
Proof. apply mid_closed. Qed.

(** The destination is told the end. *)
Lemma hit_end c ph now l q (w : W) : core ph now (w_tr w) false -> w_shut w = false -> shapes l (q ++ vr now (w_rs w)) ->
  Forall (@rq_ok A X) (w_rs w) -> w_panic w = false -> (forall a, c <> Nxt a) -> passed (w_tr w ++ [XOut c]) ->
  delayed_loop down d (w_tr w) (XOut c) -> mid ph now l q (hit c w) /\ w_shut (hit c w) = true.
Proof.
  intros HC Hs HSh F Hp Hc Hpa Hg. unfold TimeReModel.hit. rewrite Hs.
  assert (Hcl : closes down c (w_tr w) = true) by (destruct c; auto; edestruct Hc; eauto).
  destruct (@tell_open A A E (loop_st counted A E) A X true down c w Hs) as (rs & Ht & R1 & R2). rewrite Hcl in Ht, R2.
  assert (M : mid ph now l q (tell true down c w)).
  { rewrite Ht. unfold mid. lcbn. rewrite vr_app, R2, app_assoc. split; [|split; [|split; [|split; [auto|split; [auto|discriminate]]]]].
    - rewrite <- Hcl. apply core_out; auto.
    - apply shapes_more; auto. repeat constructor.
    - apply Forall_app; auto. }
  destruct (@fold_mid _ _ _ _ (answer (outs (w_tr (tell true down c w)))) _ M) as [M1 M2]. split; [exact M1|].
  cbv zeta. rewrite M2, Ht. auto.
Qed.

Notation wind_up := (wind_up (delay_op d) answer (fun n => n - 1)%Z (tell true down)).
Lemma mid_after ph now l q (w : W) : mid ph now l q w ->
  Forall (@rq_ok A X) (w_rs (wind_up w)) /\ P ph now l (q ++ vr now (w_rs (wind_up w))) (wind_up w).
Proof.
  intros HM. unfold TimeReModel.wind_up. cbv zeta. set (s := ctr w). set (w2 := set_ct (mkCt (ct_done s) (ct_off s) (ct_n s - 1)) w).
  assert (Hs2 : w_shut w2 = w_shut w) by reflexivity.
  destruct HM as (HC & HSh & F & Hp & Hsh & HL).
  destruct (w_shut w) eqn:Hs.
  { rewrite Hs2. cbn [negb]. rewrite !andb_false_r. apply settle_closed; auto.
    unfold w2, mid. lcbn. rewrite Hs. repeat (split; auto). discriminate. }
  rewrite Hs2. cbn [negb]. rewrite !andb_true_r.
  destruct (HL eq_refl) as [(Hd & Hpa & HV)|(x & Hd & Hpa & Hn & Hov)].
  - assert (Ends : forall c, c = Cmp \/ c = Uns -> In (XUp c) (w_tr w) -> (ct_n s =? 1)%Z = true ->
      Forall (@rq_ok A X) (w_rs (settle (hit c w2))) /\ P ph now l (q ++ vr now (w_rs (settle (hit c w2)))) (settle (hit c w2))).
    { intros c Hc Hi Hn. destruct (@hit_end c ph now l q w2) as [M1 M2]; auto.
      - intros a ->. destruct Hc; discriminate.
      - apply passed_snoc; auto. discriminate.
      - assert (L : length (values (w_tr w)) = length (pushes (w_tr w))).
        { apply (live_over HV). unfold dec. lcbn. fold s. apply Z.eqb_eq in Hn. rewrite Hn. auto. }
        unfold w2. lcbn. destruct Hc; subst c; cbn; (split; [apply (core_isopen HC); auto|auto]).
      - apply settle_closed; auto. }
    destruct (ct_n s =? 1)%Z eqn:Hn; rewrite ?andb_true_r, ?andb_false_r.
    + destruct (ct_done s) eqn:Hdo; [apply Ends; auto; apply (lv_done HV); exact Hdo|].
      destruct (ct_off s) eqn:Hof; [apply Ends; auto; apply (lv_off HV); auto|].
      rewrite (settle_none (delay_op d) answer true down w2) by (unfold w2, dfr in *; lcbn; rewrite Hd; auto).
      unfold P. split; [exact F|]. rewrite Hs2. split; [exact HC|]. split; [exact HSh|]. split; [|split; [|exact Hpa]].
      * intros _. unfold w2. lcbn. destruct HV as [(pl & pq & L1 & L2 & L3 & L4 & L5) L6 L7 L8].
        unfold dec in *. fold s in L4, L5, L7, L8. rewrite Hdo, Hof in *. lcbn. split; lcbn; auto.
        exists pl, pq. repeat (split; auto). intros [|]; discriminate.
      * unfold w2, dfr in *. split; lcbn; [rewrite Hd; auto|auto|]. unfold flagged, dfr. lcbn. rewrite Hd. discriminate.
    + rewrite (settle_none (delay_op d) answer true down w2) by (unfold w2, dfr in *; lcbn; rewrite Hd; auto).
      unfold P. split; [exact F|]. rewrite Hs2. split; [exact HC|]. split; [exact HSh|]. split; [|split; [|exact Hpa]].
      * intros _. unfold w2. lcbn. destruct HV as [(pl & pq & L1 & L2 & L3 & L4 & L5) L6 L7 L8].
        unfold dec in *. fold s in L4, L5, L7, L8. split; lcbn; auto.
        exists pl, pq. repeat (split; auto). intros _. right. intros Z. rewrite Z in L4. cbn in L4.
        apply Z.eqb_neq in Hn. lia.
      * unfold w2, dfr in *. split; lcbn; [rewrite Hd; auto|auto|]. unfold flagged, dfr. lcbn. rewrite Hd. discriminate.
  - assert (Hn1 : (ct_n s =? 1)%Z = false) by (unfold s; rewrite Hn; auto). rewrite Hn1, !andb_false_r.
    destruct (settle_one (delay_op d) answer true down w2 Hd) as (n & ->).
    unfold apply_one. rewrite (eq_refl : df_closed (dfr (set_df (mkDf [] false false false true) w2)) = false).
    destruct (@hit_end (Err x) ph now l q (set_df (mkDf [] false false false true) w2)) as [M1 M2]; auto.
    + discriminate.
    + unfold w2. lcbn. apply owed_paid; auto.
    + unfold w2. lcbn. cbn. split; [apply (core_isopen HC); auto|]. apply (owed_lately Hpa).
    + apply mid_closed; [|exact M2]. destruct M1 as (N1 & N2 & N3 & N4 & N5 & N6). unfold mid. lcbn.
      repeat (split; auto). intros Z. congruence.
Qed.

Lemma rest_same (w w' : W) : rest w -> w_st w' = mkLp (ctr w') (dfr w) -> w_shut w' = w_shut w -> w_panic w' = w_panic w -> rest w'.
Proof.
  intros [R1 R2 R3] E1 E2 E3. unfold flagged in *. split; unfold flagged, dfr in *; rewrite ?E1, ?E2, ?E3; auto.
Qed.
Lemma rest_shut (w : W) : df_q (dfr w) = [] -> w_panic w = false -> w_shut w = true -> rest w.
Proof. intros. split; auto. Qed.

Lemma Hcmd ph now l q (w : W) c : is_up c -> Forall (@rq_ok A X) (w_rs w) ->
  P ph now l (q ++ vr now (w_rs w)) w ->
  Forall (@rq_ok A X) (w_rs (do_cmd T down w c)) /\
  P ph now l (q ++ vr now (w_rs (do_cmd T down w c))) (do_cmd T down w c).
Proof.
  intros Hc F HP. assert (HP' := HP). destruct HP as (HC & HSh & HL & HR & Hpa).
  assert (Hpn : forall e, (forall x, e <> XUp (Err x)) -> passed (w_tr w ++ [e])).
  { intros e He. apply passed_snoc; auto. intros x H. destruct (He x); auto. }
  assert (St : w_st w = mkLp (ctr w) (dfr w)) by (unfold ctr, dfr; destruct (w_st w); auto).
  destruct c as [|c|r]; [| |destruct Hc].
  - cbn [do_cmd]. destruct (w_born w); [split; auto|]. cbn [delay_loop t_sub]. split; [exact F|]. unfold P. wcbn.
    split; [apply core_note; simpl; auto|]. split; [auto|]. split; [intros Hs; apply live_same; simpl; auto; apply HL; auto|].
    split; [apply (rest_same _ HR); auto|apply Hpn; discriminate].
  - cbn [do_cmd]. unfold up. destruct (w_born w); [|split; auto]. cbn [negb].
    (* telling the end when the destination is closed, and when it is open *)
    assert (Closed : forall o c (w1 : W), w_shut w = true -> w_shut w1 = true -> rest w1 -> w_tr w1 = w_tr w ++ [XUp c] ->
      Forall (@rq_ok A X) (w_rs w1) -> shapes l (q ++ vr now (w_rs w1)) ->
      Forall (@rq_ok A X) (w_rs (shared (delay_op d) answer (tell true down) o w1)) /\
      P ph now l (q ++ vr now (w_rs (shared (delay_op d) answer (tell true down) o w1))) (shared (delay_op d) answer (tell true down) o w1)).
    { intros o e w1 E0 E1 E2 E3 E4 E5. destruct (shared_shut (delay_op d) answer true down o E2 E1) as (s & -> & Hq).
      unfold P. lcbn. rewrite E1, E3. split; auto. rewrite E0 in HC. split; [apply core_note; simpl; auto|]. split; [auto|].
      split; [discriminate|]. split; [apply rest_shut; auto; lcbn; apply (r_panic E2)|].
      apply passed_snoc; auto. intros x _ Ho. apply (c_open HC) in Ho. discriminate. }
    assert (Ends : forall o (w1 : W), w_shut w = false -> w_shut w1 = false -> rest w1 -> w_tr w1 = w_tr w ++ [XUp o] ->
      Forall (@rq_ok A X) (w_rs w1) -> shapes l (q ++ vr now (w_rs w1)) -> (forall a, o <> Nxt a) ->
      (o = Cmp \/ o = Uns -> (ct_n (ctr w) =? 0)%Z = true) ->
      Forall (@rq_ok A X) (w_rs (shared (delay_op d) answer (tell true down) o w1)) /\
      P ph now l (q ++ vr now (w_rs (shared (delay_op d) answer (tell true down) o w1))) (shared (delay_op d) answer (tell true down) o w1)).
    { intros o w1 E0 E1 E2 E3 E4 E5 E6 E7. destruct (shared_open (delay_op d) answer true down E2 E1 E6) as (s & -> & Hq).
      destruct (@tell_open A A E (loop_st counted A E) A X true down o (set_df s w1) E1) as (rs & -> & R1 & R2).
      revert R2. unfold P. lcbn. rewrite E3.
      assert (Hcl : closes down o (w_tr w ++ [XUp o]) = true) by (destruct o; auto; edestruct E6; eauto).
      rewrite Hcl. intros R2. split; [apply Forall_app; auto|]. rewrite vr_app, R2, app_assoc. rewrite E0 in HC.
      assert (Op : open down (w_tr w ++ [XUp o])) by (rewrite open_same by discriminate; apply (core_isopen HC); auto).
      split; [|split; [|split; [discriminate|split]]].
      - rewrite <- Hcl. apply core_out; [apply core_note; simpl; auto| |auto].
        destruct o as [a|x| |]; [edestruct E6; eauto| | |]; cbn; (split; [exact Op|]).
        + exists (w_tr w), []. split; auto. constructor.
        + split; [apply in_or_app; simpl; auto|]. snocs. apply (live_over (HL E0)). apply E7; auto.
        + split; [apply in_or_app; simpl; auto|]. snocs. apply (live_over (HL E0)). apply E7; auto.
      - apply shapes_more; auto. repeat constructor.
      - apply rest_shut; auto. lcbn. apply (r_panic E2).
      - destruct o as [a|x| |]; [edestruct E6; eauto| | |].
        + apply owed_paid. apply owed_start; auto.
        + apply passed_snoc; [apply Hpn|]; discriminate.
        + apply passed_snoc; [apply Hpn|]; discriminate. }
    destruct c as [a|x| |]; try (destruct (w_over w); [split; auto; fail|]); cbn [delay_loop t_up t_torn]; set (tl := shared (delay_op d) answer (tell true down)) in *; unfold delay_op.
    + (* a value *)
      lcbn. split. { apply Forall_app; split; auto. repeat constructor. }
      rewrite vr_app, app_assoc, vr_one. unfold P. lcbn. split; [apply core_note; simpl; auto|]. split.
      { apply shapes_more; auto. repeat constructor. exists (now, a), now. auto. }
      split; [intros Hs; apply live_push; [apply (soon_now HC)|apply (c_clock HC)|apply HL; exact Hs]|].
      split; [apply (rest_same _ HR); auto|apply Hpn; discriminate].
    + (* an error *)
      destruct (w_shut w) eqn:Hs.
      * apply Closed with (c := Err x); auto; lcbn; [apply (rest_same _ HR); auto|apply Forall_app; split; [auto|repeat constructor]|].
        rewrite vr_app, app_assoc. apply shapes_more; auto. repeat constructor.
      * apply Ends; auto; lcbn; [apply (rest_same _ HR); auto|apply Forall_app; split; [auto|repeat constructor]| |discriminate|].
        { rewrite vr_app, app_assoc. apply shapes_more; auto. repeat constructor. }
        intros [|]; discriminate.
    + (* completion *)
      lcbn. destruct (ct_n (lp_ct (w_st w)) =? 0)%Z eqn:Hz.
      * destruct (w_shut w) eqn:Hs; [apply Closed with (c := Cmp)|apply Ends]; auto; try discriminate; apply (rest_same _ HR); auto.
      * unfold P. lcbn. split; auto. split; [apply core_note; simpl; auto|]. split; [auto|]. split.
        2: { split; [apply (rest_same _ HR); auto|apply Hpn; discriminate]. }
        intros Hs. destruct (HL Hs) as [(pl & pq & L1 & L2 & L3 & L4 & L5) L6 L7 L8]. split; lcbn.
        -- exists pl, pq. snocs. repeat (split; auto). intros _. right. intros Z. rewrite L4, Z in Hz. discriminate.
        -- snocs; auto.
        -- split; auto. intros. apply in_or_app; simpl; auto.
        -- discriminate.
    + (* unsubscribing *)
      assert (HR1 : rest (set_over (note (XUp Uns) w))) by (apply (rest_same _ HR); auto).
      rewrite (rest_closed HR1). lcbn. destruct (w_shut w) eqn:Hs; cbn [orb].
      { unfold P. lcbn. rewrite Hs. split; auto. split; [apply core_note; simpl; auto|]. split; [auto|]. split; [discriminate|].
        split; auto. apply Hpn; discriminate. }
      destruct (ct_off (lp_ct (w_st w))) eqn:Ho.
      { unfold P. lcbn. rewrite Hs. split; auto. split; [apply core_note; simpl; auto|]. split; [auto|].
        split; [intros _; apply live_same; simpl; auto|]. split; auto. apply Hpn; discriminate. }
      destruct (ct_n (lp_ct (w_st w)) =? 0)%Z eqn:Hz.
      { apply Ends; auto; [|discriminate]. apply (rest_same _ HR); auto. }
      unfold P. lcbn. rewrite Hs. split; auto. split; [apply core_note; simpl; auto|]. split; [auto|]. split.
      2: { split; [apply (rest_same _ HR); auto|apply Hpn; discriminate]. }
      intros _. destruct (HL eq_refl) as [(pl & pq & L1 & L2 & L3 & L4 & L5) L6 L7 L8]. split; lcbn.
      * exists pl, pq. snocs. repeat (split; auto). intros _. right. intros Z. rewrite L4, Z in Hz. discriminate.
      * snocs; auto.
      * rewrite L7, in_app_iff. simpl. split; auto. intros [?|[?|[]]]; auto. discriminate.
      * intros. apply in_or_app; simpl; auto.
Qed.

Lemma Hrun fuel t now l1 wk l2 q (w : W) wk' r w' rs :
  P (Some t) now (l1 ++ (false, wk) :: l2) q w -> Forall (fun x => fst x = true) l1 -> owned wk = true ->
  wtick (run T down user) fuel wk t w = Some (wk', r, w', rs) ->
  Forall (@rq_ok A X) rs /\
  P (Some t) now (l1 ++ (if r then [] else [(true, wk')]) ++ l2) (q ++ vr now rs) w'.
Proof.
  intros (HC & [Sh1 Sh2] & HL & HR & Hpa) Ht _.
  assert (Sh : shape wk). { rewrite Forall_app in Sh1. destruct Sh1 as [_ H6]. inversion H6; auto. }
  assert (Sh3 : shapes (l1 ++ l2) q).
  { split; auto. rewrite Forall_app in *. destruct Sh1 as [? H6]. inversion H6; auto. }
  destruct Sh as (x & cur & ->). cbn [wtick item].
  destruct (fst x + d <=? Nat.max cur t) eqn:Hd.
  2: { intros Y; injection Y as <- <- <- <-. split; auto. cbn [vr flat_map]. rewrite app_nil_r. split; [auto|split; [|split; auto]].
       - split; auto. rewrite Forall_app in *. destruct Sh1 as [F1 F2]. split; auto. inversion F2; subst. constructor; auto.
         exists x, (Nat.max cur t). auto.
       - intros Hs. destruct (HL Hs) as [(pl & pq & L1 & L2 & L3 & L4 & L5) L6 L7 L8]. split; auto.
         exists pl, pq. split; auto. clear -L1 Hd.
         apply Forall2_app_inv_l in L1. destruct L1 as (a & b & Fa & Fb & ->). apply Forall2_app; auto.
         inversion Fb as [|y1 x1 l1' pl' Q1 Q2 E1 E2]; subst. constructor; auto.
         destruct Q1 as (cur1 & Q1 & Q3). cbn in Q3. apply item_inj in Q1. destruct Q1 as [<- <-].
         exists (Nat.max cur t). cbn. split; auto. split; auto.
         apply Nat.leb_gt in Hd. lia. }
  apply Nat.leb_le in Hd. cbn [run].
  cbn [delay_loop t_run t_torn].
  intros Y; injection Y as <- <- <- <-. cbn [app].
  unfold deliver_loop. cbn [clear w_shut]. destruct (w_shut w) eqn:Hs.
  { apply mid_after. unfold mid. lcbn. rewrite Hs. cbn [vr flat_map]. rewrite app_nil_r. repeat (split; auto); try apply Sh3; try apply (r_panic HR).
    discriminate. }
  destruct (HL eq_refl) as [(pl & pq & L1 & L2 & L3 & L4 & L5) L6 L7 L8].
  (* due: it is the first *)
  assert (El : l1 = []).
  { destruct l1 as [|y l1]; auto. exfalso.
    simpl in L1. inversion L1 as [|y1 x1 l1' pl' Q1 Q2 E1 E2]; subst.
    apply Forall2_app_inv_l in Q2. destruct Q2 as (a & b & Fa & Fb & ->).
    inversion Fb as [|y2 x2 l2' pl2 Q3 Q4 E3 E4]; subst. clear Fb L1.
    assert (H9 := Forall_inv Ht). destruct Q1 as (c1 & Q1 & Q5). cbn beta in H9. rewrite H9 in Q5.
    destruct Q3 as (c2 & Q3 & Q6). cbn in Q6. apply item_inj in Q3. destruct Q3 as [<- <-].
    assert (fst x1 <= fst x).
    { apply (pushes_sorted (w_tr w) (firstn (length (values (w_tr w))) (pushes (w_tr w))) x1 a x (pl2 ++ pq)).
      rewrite <- (firstn_skipn (length (values (w_tr w))) (pushes (w_tr w))) at 1. rewrite L3. simpl. rewrite <- app_assoc. reflexivity. }
    lia. }
  subst l1. cbn [app] in *.
  inversion L1 as [|y1 x1 l1' pl' Q1 Q2 E1 E2]; subst. clear L1.
  destruct Q1 as (c1 & Q1 & Q3). cbn in Q3. apply item_inj in Q1. destruct Q1 as [<- <-].
  cbn [app] in L3.
  assert (Hn := skipn_nth _ _ L3). assert (Hs1 := skipn_next _ _ L3).
  assert (Hg : delayed_loop down d (w_tr w) (XOut (Nxt (snd x)))).
  { cbn. split; [apply (core_isopen HC); auto|]. exists (fst x). split; [destruct x; auto|]. rewrite <- (c_clock HC).
    split; [lia|]. apply (c_tick HC). }
  assert (Hlen : S (length (values (w_tr w))) <= length (pushes (w_tr w))).
  { apply nth_error_Some. rewrite Hn. discriminate. }
  assert (M : mid (Some t) now l2 q (tell true down (Nxt (snd x)) (clear w))).
  { destruct (@tell_open A A E (loop_st counted A E) A X true down (Nxt (snd x)) (clear w) Hs) as (rs & -> & R1 & R2).
    revert R2. unfold mid. lcbn. cbn [app]. rewrite andb_true_r. intros R2.
    assert (Hd0 : lp_df (w_st w) = clear_df).
    { destruct HR as [R3 R4 R5]. unfold flagged in R5. lcbn. destruct (lp_df (w_st w)) as [dq [] [] [] []];
      cbn in *; subst; rewrite ?Hs in R5; try discriminate (R5 eq_refl); auto. }
    split; [apply core_out; auto|]. split; [rewrite R2; apply shapes_more; auto; destruct (closes down (Nxt (snd x)) (w_tr w)); repeat constructor|].
    split; [auto|]. split; [apply (r_panic HR)|].
    assert (Hp1 : passed (w_tr w ++ [XOut (Nxt (snd x))])) by (apply passed_snoc; auto; discriminate).
    split; [auto|]. intros Hcl. rewrite Hcl in R2. left. split; [exact Hd0|]. split; [exact Hp1|]. rewrite R2, app_nil_r.
    unfold dec. split; lcbn.
    - exists pl', pq. rewrite L4. repeat (split; auto).
      { snocs. rewrite app_length, Nat.add_comm. cbn. auto. }
      simpl length. lia.
    - snocs. rewrite app_length, Nat.add_comm. cbn. auto.
    - rewrite L7, in_app_iff. simpl. split; auto. intros [?|[?|[]]]; auto; discriminate.
    - intros. apply in_or_app; auto. }
  apply mid_after. unfold TimeReModel.hit. cbn [clear w_shut]. rewrite Hs. apply fold_mid. exact M.
Qed.

Lemma Hbegin now l q (w : W) u : P None now l q w -> Forall (fun x => fst x = true) l ->
  P (Some u) (Nat.max now u) (map (fun x => (false, snd x)) l) q (note (XTick u) w).
Proof.
  intros (HC & [Sh1 Sh2] & HL & HR & Hpa) F. unfold P. wcbn. split; [|split; [|split; [|split]]].
  - apply core_begin; simpl; auto.
  - split; auto. rewrite Forall_map. auto.
  - intros Hs. apply live_same; simpl; auto. destruct (HL Hs) as [(pl & pq & L1 & L2 & L3 & L4 & L5) L6 L7 L8]. split; auto.
    exists pl, pq. split.
    { clear -F L1. induction L1 as [|y x l pl Q L IH]; [constructor|]. inversion F; subst. constructor; auto.
      destruct Q as (cur & Q1 & Q2). rewrite H1 in Q2. destruct Q2 as [-> Q2]. exists now. cbn. auto. }
    split; auto. clear -L2. induction L2 as [|y x l pl Q L IH]; constructor; auto. destruct Q as (cur & -> & Q).
    cbn in Q. subst cur. exists now. cbn. auto.
  - apply (rest_same _ HR); auto. lcbn. destruct (w_st w); auto.
  - apply passed_snoc; auto. discriminate.
Qed.

Lemma Hend t now l (w : W) : P (Some t) now l [] w -> Forall (fun x => fst x = true) l -> P None now l [] (note XEnd w).
Proof.
  intros (HC & Sh & HL & HR & Hpa) F. unfold P. wcbn. split; [|split; [auto|split; [|split]]].
  - apply (@core_end _ _ _ _ _ _ _ t); auto. simpl. intros Ho n s a Hn Hd. apply (c_open HC) in Ho.
    destruct (HL Ho) as [(pl & pq & L1 & L2 & L3 & L4 & L5) L6 L7 L8].
    destruct (Nat.lt_ge_cases n (length (values (w_tr w)))) as [|Hge]; auto. exfalso.
    assert (I : In (s, a) (skipn (length (values (w_tr w))) (pushes (w_tr w)))).
    { rewrite <- (firstn_skipn (length (values (w_tr w))) (pushes (w_tr w))) in Hn.
      rewrite nth_error_app2 in Hn by (rewrite firstn_length; lia). eapply nth_error_In; eauto. }
    inversion L2; subst. rewrite L3, app_nil_r in I. rewrite <- (c_clock HC) in Hd.
    clear -L1 F I Hd. induction L1 as [|y x l pl Q L IH]; [destruct I|].
    inversion F; subst. destruct I as [->|I]; auto. destruct Q as (cur & _ & Q). rewrite H1 in Q. simpl in Q. lia.
  - intros Hs. apply live_same; simpl; auto. destruct (HL Hs) as [(pl & pq & L1 & L2 & L3 & L4 & L5) L6 L7 L8]. split; auto.
    exists pl, pq. split; [|split; [inversion L2; constructor|auto]].
    clear -F L1. induction L1 as [|y x l pl Q L IH]; [constructor|]. inversion F; subst. constructor; auto.
    destruct Q as (cur & Q1 & Q2). rewrite H1 in Q2. exists cur. rewrite H1. auto.
  - apply (rest_same _ HR); auto. lcbn. destruct (w_st w); auto.
  - apply passed_snoc; auto. discriminate.
Qed.

Lemma HS ph now l wk q (w : W) : P ph now l (QS wk :: q) w -> owned wk = true -> P ph now (l ++ [(false, wk)]) q w.
Proof.
  intros (HC & [Sh1 Sh2] & HL & HR & Hpa) _. inversion Sh2; subst. split; [auto|split; [|split; [|auto]]].
  - split; auto. apply Forall_app; split; auto.
  - intros Hs. destruct (HL Hs) as [(pl & pq & L1 & L2 & L3 & L4 & L5) L6 L7 L8]. split; auto.
    inversion L2 as [|y x q' pq' Q L E1 E2]; subst. exists (pl ++ [x]), pq'. rewrite <- app_assoc. simpl. split; auto.
    apply Forall2_app; auto. constructor; auto. destruct Q as (cur & Q1 & Q2). injection Q1 as ->. exists cur. auto.
Qed.
Lemma HC ph now l q (w : W) : P ph now l (QC _ _ :: q) w -> P ph now [] q w.
Proof.
  intros (HC & [Sh1 Sh2] & HL & HR & Hpa). inversion Sh2; subst. split; [auto|split; [split; auto|split; [|auto]]].
  intros Hs. destruct (HL Hs) as [(pl & pq & L1 & L2 & L3 & L4 & L5) L6 L7 L8].
  inversion L2 as [|y x q' pq' Q L E1 E2]; subst. destruct Q as (cur & Q1 & _). discriminate.
Qed.
Lemma Hinit : P None 0 [] [] (mkW (t_new T) false false false false [] []).
Proof.
  unfold P. wcbn. split; [apply core_init|]. split; [split; constructor|].
  split; [|split; [split; cbn; auto; discriminate|apply passed_nil]]. intros _. split; cbn; auto.
  - exists [], []. repeat split; auto; cbn. intros [|]; discriminate.
  - split; [discriminate|tauto].
  - discriminate.
Qed.


Theorem delay_loop_ok fuel depth h m : syss T down user fuel (start T depth) h = Fine m ->
  let tr := w_tr (m_world m) in
  always (delayed_loop down d) tr /\ errors_pass down tr /\
  (open down tr -> In (XUp Cmp) tr -> length (values tr) < length (pushes tr)) /\
  w_panic (m_world m) = false.
Proof.
  intros H.
  destruct (@lift_any _ _ _ _ _ _ T down user P Hclear Hcmd Hrun Hbegin Hend HS HC Hinit _ _ _ _ H) as (l & q & HP & F).
  destruct HP as (HC & Sh & HL & HR & Hpa). split; [apply (c_good HC)|split; [auto|split; [|apply (r_panic HR)]]].
  intros Ho Hc. apply (c_open HC) in Ho. destruct (HL Ho) as [(pl & pq & L1 & L2 & L3 & L4 & L5) L6 L7 L8].
  apply L7 in Hc. destruct (L5 (or_intror Hc)) as [N|N]; [discriminate|]. rewrite <- L3 in N.
  destruct (Nat.lt_ge_cases (length (values (w_tr (m_world m)))) (length (pushes (w_tr (m_world m))))); auto.
  rewrite skipn_all2 in N by auto. destruct N; auto.
Qed.
End Delay.
