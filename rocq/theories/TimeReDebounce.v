(** debounce_time, with a destination that calls the source back, but pushes no values. *)
From Coq Require Import ZArith.
From Verif Require Import Base SubscrModel SchedModel SchedProofs SchedExec TimeModel TimeLift TimeSpec TimeProofs TimeDebounce
  TimeReModel TimeReSpec TimeReProofs.
Set Implicit Arguments.

Section Debounce.
Variables A E X : Type.
Variable down : list (ncall A E) -> bool * list (req X).
Variable user : X -> nat -> list (tev A A E) -> X * bool * list (cmd A E X).
Variable answer : list (ncall A E) -> list (ncall A E).
Variable d : nat.
Hypothesis Hpushless : pushless user.
Hypothesis Hanswers : answers_pushless answer.
Notation W := (world A A E (loop_st counted A E) A X).
Notation K := (clo A X).
Notation T := (debounce_loop X answer d).
Notation core := (core down (debounced_loop down d) (fun _ _ => None)).
Notation passed := (errors_pass down).
Notation clear_df := (mkDf [] false false false false).
Notation op := (@debounce_op A E X d).

Definition item (x : nat * A) (cur : nat) : work K := WDelayed (fst x) cur d (Some (KO (snd x))).
Definition shape (w : work K) : Prop := exists x cur, w = item x cur.
Definition shapes (l : list (bool * work K)) (q : list (qop A X)) : Prop :=
  Forall (fun x : bool * work K => shape (snd x)) l /\
  Forall (fun x : qop A X => match x with QS w => shape w | QC _ _ => True end) q.
Definition soon (ph : option nat) (now cur : nat) : Prop :=
  match ph with Some t => Nat.max cur t = now | None => cur = now end.
Definition active (ph : option nat) (now : nat) (y : bool * work K) (x : nat * A) : Prop :=
  exists cur, snd y = item x cur /\ if fst y then cur = now /\ now < fst x + d else soon ph now cur.

(** The tasks once all is taken over. *)
Definition eff (l : list (bool * work K)) (q : list (qop A X)) : list (bool * work K) :=
  fold_left (fun l x => match x with QS w => l ++ [(false, w)] | QC _ _ => [] end) q l.

Record live (ph : phase) (now : nat) l q (tr : list (tev A A E)) (s : counted) : Prop := mkLive {
  lv_pend : match pending tr with
            | None => eff l q = [] /\ ct_n s = 0%Z
            | Some x => exists y, eff l q = [y] /\ active (given ph) now y x /\ ct_n s = 1%Z
            end;
  lv_some : ct_off s = true \/ ct_done s = true -> pending tr <> None;
  lv_done : ct_done s = true <-> In (XUp Cmp) tr;
  lv_off : ct_off s = true -> ct_done s = false -> In (XUp Uns) tr;
  lv_run : forall t, ph = Running t -> q = []
}.
Definition P ph now l q (w : W) : Prop :=
  core (given ph) now (w_tr w) (w_shut w) /\ shapes l q /\ (w_shut w = false -> live ph now l q (w_tr w) (ctr w)) /\
  rest w /\ passed (w_tr w).

Lemma Hclear ph now l q (w : W) : P ph now l q w <-> P ph now l q (clear w).
Proof. unfold P. wcbn. split; intros (H1 & H2 & H3 & [R1 R2 R3] & H4); repeat (split; auto). Qed.

Lemma live_same ph now l q tr s e :
  match e with XSub | XTick _ | XEnd | XUp Uns | XUp (Err _) => True | _ => False end ->
  live ph now l q tr s -> live ph now l q (tr ++ [e]) s.
Proof.
  intros He [L1 L2 L3 L4 L5].
  assert (V : pending (tr ++ [e]) = pending tr) by (rewrite pending_snoc; destruct e as [| | |[]|]; try destruct He; auto).
  split; rewrite ?V; auto.
  - rewrite L3, in_app_iff. simpl. split; auto. intros [?|[->|[]]]; auto. destruct He.
  - intros. apply in_or_app. auto.
Qed.

Lemma live_over ph now l q tr s : live ph now l q tr s -> (ct_n s =? 0)%Z = true -> pending tr = None.
Proof.
  intros [L1 L2 L3 L4 L5] Hz. apply Z.eqb_eq in Hz. destruct (pending tr); auto.
  destruct L1 as (y & _ & _ & H). lia.
Qed.

Lemma shapes_more l q q' : shapes l q -> Forall (fun x : qop A X => match x with QS w => shape w | QC _ _ => True end) q' -> shapes l (q ++ q').
Proof. intros [H1 H2] H3. split; auto. apply Forall_app; auto. Qed.

Lemma vr_one now a : vr now [QSched 0 (KDelayed d) (KO a)] = [QS (item (now, a) now)].
Proof. cbn. rewrite later_max. reflexivity. Qed.

Lemma eff_app l q q' : eff l (q ++ q') = eff (eff l q) q'.
Proof. apply fold_left_app. Qed.

Definition able (c : cmd A E X) : Prop := forall a, c <> CUp (Nxt a).

Lemma item_inj x y c c' : item x c = item y c' -> x = y /\ c = c'.
Proof. unfold item. intros H. injection H as H1 H2 H3. destruct x, y; simpl in *. split; congruence. Qed.

(** *** In a task, after the destination was told something. *)
Definition mid ph now l (w : W) : Prop :=
  core ph now (w_tr w) (w_shut w) /\ shapes l (vr now (w_rs w)) /\ Forall (@rq_ok A X) (w_rs w) /\ w_panic w = false /\
  (w_shut w = true -> passed (w_tr w)) /\
  (w_shut w = false -> l = [] /\
    ((dfr w = clear_df /\ passed (w_tr w) /\ vr now (w_rs w) = [] /\ pending (w_tr w) = None /\ ct_n (ctr w) = 1%Z /\
      (ct_done (ctr w) = true <-> In (XUp Cmp) (w_tr w)) /\
      (ct_off (ctr w) = true -> ct_done (ctr w) = false -> In (XUp Uns) (w_tr w))) \/
    (exists x, dfr w = mkDf [Err x] false false false true /\ owed down x (w_tr w) /\ ct_n (ctr w) = 0%Z /\ w_over w = true))).

Lemma hold_shut c (w : W) ph now l : w_shut w = true -> mid ph now l w -> mid ph now l (hold c w).
Proof.
  intros Hs (H1 & H2 & H3 & H4 & H5 & H6). destruct (hold_eq c w) as (s & ->). unfold mid. lcbn.
  rewrite Hs in *. split; [auto|split; [auto|split; [auto|split; [auto|split; [auto|discriminate]]]]].
Qed.

Lemma nested_mid ph now l (w : W) c : (forall a, c <> Nxt a) -> mid ph now l w -> mid ph now l (nested op w c).
Proof.
  intros Hnp HM. assert (HM' := HM). destruct HM as (HC & HSh & F & Hp & Hsh & HL).
  unfold nested. destruct (w_born w); [|exact HM']. cbn [negb].
  destruct (w_shut w) eqn:Hs.
  - (* closed *)
    assert (Mid : forall (w1 : W) e, w_shut w1 = true -> w_tr w1 = w_tr w ++ [XUp e] ->
      Forall (rq_ok (X:=X)) (w_rs w1) -> w_panic w1 = false -> shapes l (vr now (w_rs w1)) -> mid ph now l w1).
    { intros w1 e E1 E2 E3 E4 E5. unfold mid. rewrite E1, E2. split; [|split; [auto|split; [auto|split; [auto|split; [|discriminate]]]]].
      - apply core_note; simpl; auto.
      - intros _. apply passed_snoc; auto. intros x _ Ho. apply (c_open HC) in Ho. congruence. }
    destruct c as [a|x| |]; [destruct (Hnp a); auto| | |]; try (destruct (w_over w); [exact HM'|]); cbn [debounce_op].
    + apply hold_shut; [exact Hs|]. apply Mid with (e := Err x); auto; lcbn.
      * apply Forall_app; split; [auto|repeat constructor].
      * rewrite vr_app. apply shapes_more; auto. repeat constructor.
    + match goal with |- context [if ?b then _ else _] => destruct b end; [apply hold_shut; [exact Hs|]|]; apply Mid with (e := Cmp); auto.
    + match goal with |- context [if ?b then _ else _] => destruct b end; [apply Mid with (e := Uns); auto|].
      match goal with |- context [if ?b then _ else _] => destruct b end; [apply hold_shut; [exact Hs|]|]; apply Mid with (e := Uns); auto.
  - destruct (HL eq_refl) as [Hl [(Hd & Hpa & V1 & V2 & V3 & V4 & V5)|(x & Hd & Hpa & Hn & Hov)]].
    2: { (* an error is held back: the source can only be unsubscribed *)
      rewrite Hov. destruct c; try exact HM'. cbn [debounce_op].
      assert (Hf : flagged (set_over (note (XUp Uns) w)) = true) by (unfold flagged; lcbn; rewrite Hd; auto).
      rewrite Hf. cbn [orb]. unfold mid. lcbn. rewrite Hs. split; [apply core_note; simpl; auto|].
      split; [auto|split; [auto|split; [auto|split; [discriminate|]]]]. intros _. split; [auto|]. right. exists x.
      repeat (split; auto). apply owed_uns; auto. }
    assert (Hn : (ct_n (ctr w) =? 0)%Z = false) by (rewrite V3; auto).
    assert (Hpn : forall c, (forall x, c <> Err x) -> passed (w_tr w ++ [XUp c])).
    { intros c0 Hc. apply passed_snoc; auto. intros x H. injection H as ->. destruct (Hc x); auto. }
    destruct c as [a|x| |]; [destruct (Hnp a); auto| | |]; try (destruct (w_over w) eqn:Hov; [exact HM'|]); cbn [debounce_op].
    + (* an error *)
      unfold hold, push, flagged. lcbn. rewrite Hd. lcbn. cbn [orb app].
      unfold mid. lcbn. rewrite Hs, vr_app. split; [apply core_note; simpl; auto|].
      split. { apply shapes_more; auto. repeat constructor. }
      split. { apply Forall_app; split; [auto|repeat constructor]. }
      split; [auto|]. split; [discriminate|]. intros _. split; [auto|]. right. exists x. repeat (split; auto). apply owed_start; auto.
    + (* completion *)
      lcbn. rewrite Hn. unfold mid. lcbn. rewrite Hs. split; [apply core_note; simpl; auto|].
      split; [auto|split; [auto|split; [auto|split; [discriminate|]]]]. intros _. split; [auto|]. left.
      split; [exact Hd|]. split; [apply Hpn; discriminate|]. split; [auto|]. split; [rewrite pending_snoc; auto|]. split; [auto|].
      split; [|discriminate]. split; auto. intros. apply in_or_app; simpl; auto.
    + (* unsubscribing *)
      assert (Hf : flagged (set_over (note (XUp Uns) w)) = false) by (unfold flagged; lcbn; rewrite Hd; auto).
      rewrite Hf. cbn [orb]. lcbn.
      assert (V6 : ct_done (lp_ct (w_st w)) = true <-> In (XUp Cmp) (w_tr w ++ [XUp Uns])).
      { rewrite V4, in_app_iff. simpl. split; auto. intros [?|[?|[]]]; auto. discriminate. }
      assert (V7 : In (XUp Uns) (w_tr w ++ [XUp Uns])) by (apply in_or_app; simpl; auto).
      destruct (ct_off (lp_ct (w_st w))) eqn:Ho; [|rewrite Hn];
      (unfold mid; lcbn; rewrite Hs; split; [apply core_note; simpl; auto|];
       split; [auto|split; [auto|split; [auto|split; [discriminate|]]]]; intros _; split; [auto|]; left;
       split; [exact Hd|]; split; [apply Hpn; discriminate|]; split; [auto|]; split; [rewrite pending_snoc; auto|]; split; [auto|];
       split; [exact V6|auto]).
Qed.
Lemma nested_shut (w : W) c : w_shut (nested op w c) = w_shut w.
Proof.
  assert (H : forall c (w1 : W), w_shut (hold c w1) = w_shut w1) by (intros c0 w1; destruct (hold_eq c0 w1) as (s & ->); auto).
  unfold nested. destruct (negb (w_born w)); auto.
  destruct c; try destruct (w_over w); auto; cbn [debounce_op]; rewrite ?H; auto;
  repeat match goal with |- context [if ?b then _ else _] => destruct b end; rewrite ?H; auto.
Qed.
Lemma fold_mid ph now l cs : (forall a, ~ In (Nxt a) cs) -> forall w : W, mid ph now l w ->
  mid ph now l (fold_left (nested op) cs w) /\ w_shut (fold_left (nested op) cs w) = w_shut w.
Proof.
  induction cs as [|c cs IH]; intros Hne w H; simpl; auto.
  assert (Hc : forall a, c <> Nxt a) by (intros a ->; apply (Hne a); simpl; auto).
  destruct (IH (fun x I => Hne x (or_intror I)) _ (@nested_mid _ _ _ _ c Hc H)) as [H1 H2].
  split; auto. rewrite H2. apply nested_shut.
Qed.
Notation hit := (hit op answer (tell true down)).
Notation settle := (settle op answer (tell true down)).

Lemma mid_closed n t now l (w : W) : mid (Some t) now l w -> w_shut w = true ->
  Forall (@rq_ok A X) (w_rs (apply_queue op answer (S (S n)) (tell true down) w)) /\
  P (Running t) now l (vr now (w_rs (apply_queue op answer (S (S n)) (tell true down) w)))
    (apply_queue op answer (S (S n)) (tell true down) w).
Proof.
  intros (H1 & H2 & H3 & H4 & H5 & H6) Hs. destruct (apply_shut op answer true down n w Hs) as (s & -> & Hq).
  unfold P. lcbn. split; [auto|]. split; [auto|]. split; [auto|]. split; [congruence|]. split; [|auto].
  split; lcbn; auto.
Qed.
Lemma settle_closed t now l (w : W) : mid (Some t) now l w -> w_shut w = true ->
  Forall (@rq_ok A X) (w_rs (settle w)) /\ P (Running t) now l (vr now (w_rs (settle w))) (settle w).
Proof. apply mid_closed. Qed.

(** The destination is told the end. *)
Lemma hit_end c ph now l (w : W) : core ph now (w_tr w) false -> w_shut w = false -> shapes l (vr now (w_rs w)) ->
  Forall (@rq_ok A X) (w_rs w) -> w_panic w = false -> (forall a, c <> Nxt a) -> passed (w_tr w ++ [XOut c]) ->
  debounced_loop down d (w_tr w) (XOut c) -> mid ph now l (hit c w) /\ w_shut (hit c w) = true.
Proof.
  intros HC Hs HSh F Hp Hc Hpa Hg. unfold TimeReModel.hit. rewrite Hs.
  assert (Hcl : closes down c (w_tr w) = true) by (destruct c; auto; edestruct Hc; eauto).
  destruct (@tell_open A A E (loop_st counted A E) A X true down c w Hs) as (rs & Ht & R1 & R2). rewrite Hcl in Ht, R2.
  assert (M : mid ph now l (tell true down c w)).
  { rewrite Ht. unfold mid. lcbn. rewrite vr_app, R2. split; [|split; [|split; [|split; [auto|split; [auto|discriminate]]]]].
    - rewrite <- Hcl. apply core_out; auto.
    - apply shapes_more; auto. repeat constructor.
    - apply Forall_app; auto. }
  destruct (fold_mid _ (Hanswers (outs (w_tr (tell true down c w)))) M) as [M1 M2]. split; [exact M1|].
  cbv zeta. rewrite M2, Ht. auto.
Qed.

Notation wind_up := (wind_up op answer (fun _ => 0)%Z (tell true down)).
Lemma mid_after t now l (w : W) : mid (Some t) now l w ->
  Forall (@rq_ok A X) (w_rs (wind_up w)) /\ P (Running t) now l (vr now (w_rs (wind_up w))) (wind_up w).
Proof.
  intros HM. unfold TimeReModel.wind_up. cbv zeta. set (s := ctr w). set (w2 := set_ct (mkCt (ct_done s) (ct_off s) 0) w).
  assert (Hs2 : w_shut w2 = w_shut w) by reflexivity.
  destruct HM as (HC & HSh & F & Hp & Hsh & HL).
  destruct (w_shut w) eqn:Hs.
  { rewrite Hs2. cbn [negb]. rewrite !andb_false_r. apply settle_closed; auto.
    unfold w2, mid. lcbn. rewrite Hs. split; [auto|split; [auto|split; [auto|split; [auto|split; [auto|discriminate]]]]]. }
  rewrite Hs2. cbn [negb]. rewrite !andb_true_r.
  destruct (HL eq_refl) as [Hl [(Hd & Hpa & V1 & V2 & V3 & V4 & V5)|(x & Hd & Hpa & Hn & Hov)]].
  - assert (Ends : forall c, c = Cmp \/ c = Uns -> In (XUp c) (w_tr w) ->
      Forall (@rq_ok A X) (w_rs (settle (hit c w2))) /\ P (Running t) now l (vr now (w_rs (settle (hit c w2)))) (settle (hit c w2))).
    { intros c Hc Hi. destruct (@hit_end c (Some t) now l w2) as [M1 M2]; auto.
      - intros a ->. destruct Hc; discriminate.
      - apply passed_snoc; auto. discriminate.
      - unfold w2. lcbn. destruct Hc; subst c; cbn; (split; [apply (core_isopen HC); auto|auto]).
      - apply settle_closed; auto. }
    assert (Hn1 : (ct_n s =? 1)%Z = true) by (unfold s; rewrite V3; auto). rewrite Hn1, !andb_true_r.
    destruct (ct_done s) eqn:Hdo; [apply Ends; auto; apply V4; exact Hdo|].
    destruct (ct_off s) eqn:Hof; [apply Ends; auto|].
    rewrite (settle_none op answer true down w2) by (unfold w2; lcbn; rewrite Hd; auto).
    unfold P. split; [exact F|]. rewrite Hs2. split; [exact HC|]. split; [exact HSh|]. split; [|split; [|exact Hpa]].
    + intros _. change (w_rs w2) with (w_rs w). rewrite V1. unfold w2. lcbn. fold s in V4. rewrite Hdo in V4.
      split; lcbn; auto; try discriminate.
      * rewrite V2. subst l. auto.
      * intros [|]; discriminate.
    + unfold w2. split; lcbn; [rewrite Hd; auto|auto|]. unfold flagged. lcbn. rewrite Hd. discriminate.
  - assert (Hn1 : (ct_n s =? 1)%Z = false) by (unfold s; rewrite Hn; auto). rewrite Hn1, !andb_false_r.
    destruct (settle_one op answer true down w2 Hd) as (n & ->).
    unfold apply_one. rewrite (eq_refl : df_closed (dfr (set_df (mkDf [] false false false true) w2)) = false).
    destruct (@hit_end (Err x) (Some t) now l (set_df (mkDf [] false false false true) w2)) as [M1 M2]; auto.
    + discriminate.
    + unfold w2. lcbn. apply owed_paid; auto.
    + unfold w2. lcbn. cbn. split; [apply (core_isopen HC); auto|]. apply (owed_lately Hpa).
    + apply mid_closed; [|exact M2]. destruct M1 as (N1 & N2 & N3 & N4 & N5 & N6). unfold mid. lcbn.
      split; [auto|split; [auto|split; [auto|split; [auto|split; [auto|]]]]]. intros Z. congruence.
Qed.

Lemma rest_same (w w' : W) : rest w -> w_st w' = mkLp (ctr w') (dfr w) -> w_shut w' = w_shut w -> w_panic w' = w_panic w -> rest w'.
Proof.
  intros [R1 R2 R3] E1 E2 E3. unfold flagged in *. split; unfold flagged, dfr in *; rewrite ?E1, ?E2, ?E3; auto.
Qed.
Lemma rest_shut (w : W) : df_q (dfr w) = [] -> w_panic w = false -> w_shut w = true -> rest w.
Proof. intros. split; auto. Qed.

Lemma Hcmd ph now l q (w : W) c : is_up c -> ph = Between \/ able c -> Forall (@rq_ok A X) (w_rs w) ->
  P ph now l (q ++ vr now (w_rs w)) w ->
  Forall (@rq_ok A X) (w_rs (do_cmd T down w c)) /\
  P ph now l (q ++ vr now (w_rs (do_cmd T down w c))) (do_cmd T down w c).
Proof.
  intros Hc Hab F HP. assert (HP' := HP). destruct HP as (HC & HSh & HL & HR & Hpa).
  assert (Hpn : forall e, (forall x, e <> XUp (Err x)) -> passed (w_tr w ++ [e])).
  { intros e He. apply passed_snoc; auto. intros x H. destruct (He x); auto. }
  assert (St : w_st w = mkLp (ctr w) (dfr w)) by (unfold ctr, dfr; destruct (w_st w); auto).
  destruct c as [|c|r]; [| |destruct Hc].
  - cbn [do_cmd]. destruct (w_born w); [split; auto|]. cbn [debounce_loop t_sub]. split; [exact F|]. unfold P. wcbn.
    split; [apply core_note; simpl; auto|]. split; [auto|]. split; [intros Hs; apply live_same; simpl; auto; apply HL; auto|].
    split; [apply (rest_same _ HR); auto|apply Hpn; discriminate].
  - cbn [do_cmd]. unfold up. destruct (w_born w); [|split; auto]. cbn [negb].
    (* telling the end when the destination is closed, and when it is open *)
    assert (Closed : forall o c (w1 : W), w_shut w = true -> w_shut w1 = true -> rest w1 -> w_tr w1 = w_tr w ++ [XUp c] ->
      Forall (@rq_ok A X) (w_rs w1) -> shapes l (q ++ vr now (w_rs w1)) ->
      Forall (@rq_ok A X) (w_rs (shared op answer (tell true down) o w1)) /\
      P ph now l (q ++ vr now (w_rs (shared op answer (tell true down) o w1))) (shared op answer (tell true down) o w1)).
    { intros o e w1 E0 E1 E2 E3 E4 E5. destruct (shared_shut op answer true down o E2 E1) as (s & -> & Hq).
      unfold P. lcbn. rewrite E1, E3. split; auto. rewrite E0 in HC. split; [apply core_note; simpl; auto|]. split; [auto|].
      split; [discriminate|]. split; [apply rest_shut; auto; lcbn; apply (r_panic E2)|].
      apply passed_snoc; auto. intros x _ Ho. apply (c_open HC) in Ho. discriminate. }
    assert (Ends : forall o (w1 : W), w_shut w = false -> w_shut w1 = false -> rest w1 -> w_tr w1 = w_tr w ++ [XUp o] ->
      Forall (@rq_ok A X) (w_rs w1) -> shapes l (q ++ vr now (w_rs w1)) -> (forall a, o <> Nxt a) ->
      (o = Cmp \/ o = Uns -> (ct_n (ctr w) =? 0)%Z = true) ->
      Forall (@rq_ok A X) (w_rs (shared op answer (tell true down) o w1)) /\
      P ph now l (q ++ vr now (w_rs (shared op answer (tell true down) o w1))) (shared op answer (tell true down) o w1)).
    { intros o w1 E0 E1 E2 E3 E4 E5 E6 E7. destruct (shared_open op answer true down E2 E1 E6) as (s & -> & Hq).
      destruct (@tell_open A A E (loop_st counted A E) A X true down o (set_df s w1) E1) as (rs & -> & R1 & R2).
      revert R2. unfold P. lcbn. rewrite E3.
      assert (Hcl : closes down o (w_tr w ++ [XUp o]) = true) by (destruct o; auto; edestruct E6; eauto).
      rewrite Hcl. intros R2. split; [apply Forall_app; auto|]. rewrite vr_app, R2, app_assoc. rewrite E0 in HC.
      assert (Op : open down (w_tr w ++ [XUp o])) by (rewrite open_same by discriminate; apply (core_isopen HC); auto).
      split; [|split; [|split; [discriminate|split]]].
      - rewrite <- Hcl. apply core_out; [apply core_note; simpl; auto| |auto].
        destruct o as [a|x| |]; [edestruct E6; eauto| | |]; cbn; (split; [exact Op|]).
        + exists (w_tr w), []. split; auto. constructor.
        + split; [apply in_or_app; simpl; auto|]. rewrite pending_snoc. apply (live_over (HL E0)). apply E7; auto.
        + split; [apply in_or_app; simpl; auto|]. rewrite pending_snoc. apply (live_over (HL E0)). apply E7; auto.
      - apply shapes_more; auto. repeat constructor.
      - apply rest_shut; auto. lcbn. apply (r_panic E2).
      - destruct o as [a|x| |]; [edestruct E6; eauto| | |].
        + apply owed_paid. apply owed_start; auto.
        + apply passed_snoc; [apply Hpn|]; discriminate.
        + apply passed_snoc; [apply Hpn|]; discriminate. }
    destruct c as [a|x| |]; try (destruct (w_over w); [split; auto; fail|]); cbn [debounce_loop t_up t_torn]; set (tl := shared op answer (tell true down)) in *; unfold debounce_op.
    + (* a value *)
      destruct Hab as [->|Hab]; [|exfalso; eapply Hab; eauto].
      lcbn. split. { rewrite !Forall_app; repeat split; auto; repeat constructor. }
      rewrite !vr_app, vr_one. change (vr now [QCancel 0]) with [QC A X]. rewrite !app_assoc. unfold P. lcbn. split; [apply core_note; simpl; auto|]. split.
      { apply shapes_more; [apply shapes_more; auto; repeat constructor|]. repeat constructor. exists (now, a), now. auto. }
      split; [|split; [apply (rest_same _ HR); auto|apply Hpn; discriminate]].
      intros Hs. destruct (HL Hs) as [L1 L2 L3 L4 L5]. split; rewrite ?pending_snoc; cbn [ct_done ct_off ct_n]; try discriminate.
      * exists (false, item (now, a) now). rewrite !eff_app. cbn [eff fold_left app]. split; auto. split; auto.
        exists now. rewrite <- (c_clock HC). simpl. auto.
      * rewrite L3, in_app_iff. simpl. split; auto. intros [?|[?|[]]]; auto. discriminate.
      * intros. apply in_or_app; auto.
    + (* an error *)
      destruct (w_shut w) eqn:Hs.
      * apply Closed with (c := Err x); auto; lcbn; [apply (rest_same _ HR); auto|apply Forall_app; split; [auto|repeat constructor]|].
        rewrite vr_app, app_assoc. apply shapes_more; auto. repeat constructor.
      * apply Ends; auto; lcbn; [apply (rest_same _ HR); auto|apply Forall_app; split; [auto|repeat constructor]| |discriminate|].
        { rewrite vr_app, app_assoc. apply shapes_more; auto. repeat constructor. }
        intros [|]; discriminate.
    + (* completion *)
      lcbn. destruct (ct_n (lp_ct (w_st w)) =? 0)%Z eqn:Hz.
      * destruct (w_shut w) eqn:Hs; [apply Closed with (c := Cmp)|apply Ends]; auto; try discriminate; apply (rest_same _ HR); auto.
      * unfold P. lcbn. split; auto. split; [apply core_note; simpl; auto|]. split; [auto|]. split.
        2: { split; [apply (rest_same _ HR); auto|apply Hpn; discriminate]. }
        intros Hs. destruct (HL Hs) as [L1 L2 L3 L4 L5]. split; rewrite ?pending_snoc; lcbn; auto; try discriminate.
        -- intros _ Z. rewrite Z in L1. destruct L1 as [_ L1]. rewrite L1 in Hz. discriminate.
        -- split; auto. intros. apply in_or_app; simpl; auto.
    + (* unsubscribing *)
      assert (HR1 : rest (set_over (note (XUp Uns) w))) by (apply (rest_same _ HR); auto).
      rewrite (rest_closed HR1). lcbn. destruct (w_shut w) eqn:Hs; cbn [orb].
      { unfold P. lcbn. rewrite Hs. split; auto. split; [apply core_note; simpl; auto|]. split; [auto|]. split; [discriminate|].
        split; auto. apply Hpn; discriminate. }
      destruct (ct_off (lp_ct (w_st w))) eqn:Ho.
      { unfold P. lcbn. rewrite Hs. split; auto. split; [apply core_note; simpl; auto|]. split; [auto|].
        split; [intros _; apply live_same; simpl; auto|]. split; auto. apply Hpn; discriminate. }
      destruct (ct_n (lp_ct (w_st w)) =? 0)%Z eqn:Hz.
      { apply Ends; auto; [|discriminate]. apply (rest_same _ HR); auto. }
      unfold P. lcbn. rewrite Hs. split; auto. split; [apply core_note; simpl; auto|]. split; [auto|]. split.
      2: { split; [apply (rest_same _ HR); auto|apply Hpn; discriminate]. }
      intros _. destruct (HL eq_refl) as [L1 L2 L3 L4 L5]. split; rewrite ?pending_snoc; lcbn; auto; try discriminate.
      * intros _ Z. rewrite Z in L1. destruct L1 as [_ L1]. rewrite L1 in Hz. discriminate.
      * rewrite L3, in_app_iff. simpl. split; auto. intros [?|[?|[]]]; auto. discriminate.
      * intros. apply in_or_app; simpl; auto.
Qed.

Lemma Hrun fuel t now l1 wk l2 q (w : W) wk' r w' rs :
  P (Running t) now (l1 ++ (false, wk) :: l2) q w -> Forall (fun x => fst x = true) l1 -> owned wk = true ->
  wtick (run T down user) fuel wk t w = Some (wk', r, w', rs) ->
  Forall (@rq_ok A X) rs /\
  P (Running t) now (l1 ++ (if r then [] else [(true, wk')]) ++ l2) (q ++ vr now rs) w'.
Proof.
  intros (HC & [Sh1 Sh2] & HL & HR & Hpa) Ht _.
  assert (Sh : shape wk). { rewrite Forall_app in Sh1. destruct Sh1 as [_ H6]. inversion H6; auto. }
  assert (Sh3 : shapes (l1 ++ l2) q).
  { split; auto. rewrite Forall_app in *. destruct Sh1 as [? H6]. inversion H6; auto. }
  destruct Sh as (x & cur & ->). cbn [wtick item].
  (* while open it is the only one *)
  assert (One : w_shut w = false -> l1 = [] /\ l2 = [] /\ q = [] /\ pending (w_tr w) = Some x /\ Nat.max cur t = now /\ ct_n (ctr w) = 1%Z).
  { intros Hs. destruct (HL Hs) as [L1 L2 L3 L4 L5]. assert (q = []) by (eapply L5; eauto). subst q. cbn [eff fold_left] in L1.
    destruct (pending (w_tr w)) as [x1|]; [|destruct L1 as [L1 _]; destruct l1; discriminate].
    destruct L1 as (y & L1 & L6 & L7). destruct l1 as [|y1 l1]; [|destruct l1; discriminate]. cbn [app] in L1.
    injection L1 as <- ->. destruct L6 as (c1 & Q1 & Q2). cbn in Q2. apply item_inj in Q1. destruct Q1 as [<- <-]. auto 7. }
  destruct (fst x + d <=? Nat.max cur t) eqn:Hd.
  2: { intros Y; injection Y as <- <- <- <-. split; auto. cbn [vr flat_map]. rewrite app_nil_r. split; [auto|split; [|split; [|auto]]].
       - split; auto. rewrite Forall_app in *. destruct Sh1 as [F1 F2]. split; auto. inversion F2; subst. constructor; auto.
         exists x, (Nat.max cur t). auto.
       - intros Hs. destruct (One Hs) as (-> & -> & -> & Hp & Hm & Hn). destruct (HL Hs) as [L1 L2 L3 L4 L5]. split; auto.
         rewrite Hp. cbn. eexists. split; [reflexivity|]. split; auto. exists (Nat.max cur t). simpl. split; auto. split; auto.
         apply Nat.leb_gt in Hd. lia. }
  apply Nat.leb_le in Hd. cbn [run].
  cbn [debounce_loop t_run t_torn].
  intros Y; injection Y as <- <- <- <-. cbn [app].
  unfold deliver_loop. cbn [clear w_shut]. destruct (w_shut w) eqn:Hs.
  { destruct (mid_after (t := t) (now := now) (l := l1 ++ l2) (w := clear w)) as [M1 M2].
    { unfold mid. lcbn. rewrite Hs. cbn [vr flat_map]. split; [auto|]. split; [split; [apply Sh3|constructor]|]. split; [constructor|].
      split; [apply (r_panic HR)|]. split; [auto|discriminate]. }
    split; [exact M1|]. destruct M2 as (N1 & N2 & N3 & N4 & N5). split; [exact N1|]. split; [|split; [|split; [exact N4|exact N5]]].
    { destruct Sh3 as [? ?]. destruct N2 as [? ?]. split; auto. apply Forall_app; auto. }
    intros Z. exfalso. revert Z. unfold TimeReModel.wind_up. cbn [clear w_shut set_ct st]. rewrite Hs. cbn [negb]. rewrite !andb_false_r.
    match goal with |- w_shut (TimeReModel.settle _ _ _ ?w3) = _ -> _ => destruct (settle_shut op answer true down w3 Hs) as (s & -> & _) end.
    cbn. rewrite Hs. discriminate. }
  destruct (HL eq_refl) as [L1 L2 L3 L4 L5].
  destruct (One eq_refl) as (-> & -> & -> & Hp & Hm & Hn). clear One. cbn [app] in *.
  assert (Hg : debounced_loop down d (w_tr w) (XOut (Nxt (snd x)))).
  { cbn. split; [apply (core_isopen HC); auto|]. exists (fst x). split; [destruct x; auto|]. rewrite <- (c_clock HC).
    split; [lia|]. apply (c_tick HC). }
  assert (M : mid (Some t) now [] (tell true down (Nxt (snd x)) (clear w))).
  { destruct (@tell_open A A E (loop_st counted A E) A X true down (Nxt (snd x)) (clear w) Hs) as (rs & -> & R1 & R2).
    revert R2. unfold mid. lcbn. cbn [app]. rewrite andb_true_r. intros R2.
    assert (Hd0 : lp_df (w_st w) = clear_df).
    { destruct HR as [R3 R4 R5]. unfold flagged in R5. lcbn. destruct (lp_df (w_st w)) as [dq [] [] [] []];
      cbn in *; subst; rewrite ?Hs in R5; try discriminate (R5 eq_refl); auto. }
    split; [apply core_out; auto|]. split; [rewrite R2; destruct (closes down (Nxt (snd x)) (w_tr w)); repeat constructor|].
    split; [auto|]. split; [apply (r_panic HR)|].
    assert (Hp1 : passed (w_tr w ++ [XOut (Nxt (snd x))])) by (apply passed_snoc; auto; discriminate).
    split; [auto|]. intros Hcl. rewrite Hcl in R2. split; [auto|]. left. split; [exact Hd0|]. split; [exact Hp1|]. split; [apply R2|].
    split; [rewrite pending_snoc; auto|]. split; [exact Hn|]. split.
    - rewrite L3, in_app_iff. simpl. split; auto. intros [?|[?|[]]]; auto; discriminate.
    - intros. apply in_or_app; auto. }
  apply mid_after. unfold TimeReModel.hit. cbn [clear w_shut]. rewrite Hs. apply fold_mid; [apply Hanswers|exact M].
Qed.

Lemma Hbegin now l q (w : W) u : P Between now l q w -> Forall (fun x => fst x = true) l ->
  P (Begun u) (Nat.max now u) (map (fun x => (false, snd x)) l) q (note (XTick u) w).
Proof.
  intros (HC & [Sh1 Sh2] & HL & HR & Hpa) F. unfold P. wcbn. split; [|split; [|split; [|split]]].
  - apply core_begin; simpl; auto.
  - split; auto. rewrite Forall_map. auto.
  - intros Hs. apply live_same; simpl; auto. destruct (HL Hs) as [L1 L2 L3 L4 L5]. split; auto; try discriminate.
    assert (He : eff (map (fun x => (false, snd x)) l) q = map (fun x => (false, snd x)) (eff l q)).
    { clear. revert l. induction q as [|[wk|] q IH]; intros l; simpl; auto.
      - rewrite <- IH, map_app. reflexivity.
      - rewrite <- IH. reflexivity. }
    rewrite He. destruct (pending (w_tr w)) as [x|].
    + destruct L1 as (y & -> & (cur & Q1 & Q2) & Q3). eexists. split; [reflexivity|]. split; auto.
      exists cur. split; auto. simpl. cbn in Q2. destruct (fst y); [destruct Q2|]; subst; auto.
    + destruct L1 as [-> L1]. auto.
  - apply (rest_same _ HR); auto. lcbn. destruct (w_st w); auto.
  - apply passed_snoc; auto. discriminate.
Qed.

Lemma Hgo t now l (w : W) : P (Begun t) now l [] w -> P (Running t) now l [] w.
Proof.
  intros (HC & Sh & HL & HR). split; [exact HC|split; [auto|split; [|auto]]]. intros Hs. destruct (HL Hs) as [L1 L2 L3 L4 L5]. split; auto.
Qed.

Lemma Hend t now l (w : W) : P (Running t) now l [] w -> Forall (fun x => fst x = true) l -> P Between now l [] (note XEnd w).
Proof.
  intros (HC & Sh & HL & HR & Hpa) F. unfold P. wcbn. split; [|split; [auto|split; [|split]]].
  - apply (@core_end _ _ _ _ _ _ _ t); auto. simpl. intros Ho s a Hp. apply (c_open HC) in Ho.
    destruct (HL Ho) as [L1 L2 L3 L4 L5]. rewrite Hp in L1. destruct L1 as (y & L1 & (cur & Q1 & Q2) & Q3).
    cbn [eff fold_left] in L1. subst l. apply Forall_inv in F. rewrite F in Q2. rewrite <- (c_clock HC). simpl in Q2. lia.
  - intros Hs. apply live_same; simpl; auto. destruct (HL Hs) as [L1 L2 L3 L4 L5]. split; auto; try discriminate.
    destruct (pending (w_tr w)) as [x|]; auto. destruct L1 as (y & L1 & (cur & Q1 & Q2) & Q3).
    exists y. split; auto. split; auto. cbn [eff fold_left] in L1. subst l. apply Forall_inv in F. cbn beta in F.
    exists cur. rewrite F in *. auto.
  - apply (rest_same _ HR); auto. lcbn. destruct (w_st w); auto.
  - apply passed_snoc; auto. discriminate.
Qed.

Lemma HS ph now l wk q (w : W) : P ph now l (QS wk :: q) w -> owned wk = true -> P ph now (l ++ [(false, wk)]) q w.
Proof.
  intros (HC & [Sh1 Sh2] & HL & HR) _. inversion Sh2; subst. split; [auto|split; [|split; [|exact HR]]].
  - split; auto. apply Forall_app; split; auto.
  - intros Hs. destruct (HL Hs) as [L1 L2 L3 L4 L5]. split; auto. intros t Ht. discriminate (L5 t Ht).
Qed.
Lemma HC ph now l q (w : W) : P ph now l (QC _ _ :: q) w -> P ph now [] q w.
Proof.
  intros (HC & [Sh1 Sh2] & HL & HR). inversion Sh2; subst. split; [auto|split; [split; auto|split; [|exact HR]]].
  intros Hs. destruct (HL Hs) as [L1 L2 L3 L4 L5]. split; auto. intros t Ht. discriminate (L5 t Ht).
Qed.
Lemma Hinit : P Between 0 [] [] (mkW (t_new T) false false false false [] []).
Proof.
  unfold P. wcbn. split; [apply core_init|]. split; [split; constructor|].
  split; [|split; [split; cbn; auto; discriminate|apply passed_nil]]. intros _. split; cbn; auto; try discriminate.
  - intros [|]; discriminate.
  - split; [discriminate|tauto].
Qed.

Theorem debounce_loop_ok fuel depth h m : syss T down user fuel (start T depth) h = Fine m ->
  let tr := w_tr (m_world m) in
  always (debounced_loop down d) tr /\ errors_pass down tr /\
  (open down tr -> In (XUp Cmp) tr -> pending tr <> None) /\ w_panic (m_world m) = false.
Proof.
  intros H.
  assert (Hu : forall x t tr, Forall able (snd (user x t tr))).
  { intros x t tr. apply Forall_forall. intros c Hi a ->. exact (Hpushless _ _ _ _ Hi). }
  destruct (@lift _ _ _ _ _ _ T down user P Hclear able Hu Hcmd Hrun Hbegin Hgo Hend HS HC Hinit _ _ _ _ H) as (l & q & HP & F).
  destruct HP as (HC & Sh & HL & HR & Hpa). split; [apply (c_good HC)|split; [auto|split; [|apply (r_panic HR)]]].
  intros Ho Hc. apply (c_open HC) in Ho. destruct (HL Ho) as [L1 L2 L3 L4 L5].
  apply L2. right. tauto.
Qed.
End Debounce.
