(** fallback_when_silent, with a destination that calls the source back. *)
From Verif Require Import Base SubscrModel SchedModel SchedProofs SchedExec TimeModel TimeLift TimeSpec TimeProofs
  TimeReModel TimeReSpec TimeReProofs TimeReMoreModel TimeReMoreSpec TimeReMoreProofs.
Set Implicit Arguments.

Section Fallback.
Variables A E X : Type.
Variable fb : nat -> nat -> A.
Variable down : list (ncall A E) -> bool * list (req X).
Variable user : X -> nat -> list (tev A A E) -> X * bool * list (cmd A E X).
Variable answer : list (ncall A E) -> list (ncall A E).
Notation O := nat.
Notation W := (world A A E (loop_st (option A) A E) O X).
Notation K := (clo O X).
Notation T := (fallback_loop X answer fb).
Notation core := (core down (fallen_loop down fb) (fun _ _ => None)).
Notation passed := (ends_pass down).
Notation clear_df := (mkDf [] false false false false).
Notation op := (@fallback_op A E X).
Notation tell := (tell false down).
Notation hit := (hit op answer tell).
Notation settle := (settle op answer tell).

Definition shape (w : work K) : Prop := exists lst i, w = WContinuous lst (KO i).
Definition mine (tr : list (tev A A E)) (b : bool) (w : work K) : Prop :=
  (exists lst, w = WContinuous lst (KO (length (values tr)))) /\ in_tick tr = if b then 1 else 0.

Record live l q (w : W) : Prop := mkLive {
  lv_born : w_born w = some (since (w_tr w));
  lv_task : if w_born w then one (mine (w_tr w)) l q else l = [] /\ q = [] /\ values (w_tr w) = [] /\ in_tick (w_tr w) = 0;
  lv_st : ctr w = latest (w_tr w)
}.
Definition P ph now l q (w : W) : Prop :=
  core ph now (w_tr w) (w_shut w) /\ shaped shape l q /\ (w_shut w = false -> live l q w) /\ rest w /\ passed (w_tr w).

Lemma Hclear ph now l q (w : W) : P ph now l q w <-> P ph now l q (clear w).
Proof.
  unfold P. split; intros (H1 & H2 & H3 & [R1 R2 R3] & H5); (split; [auto|split; [auto|split; [|split; [split; auto|auto]]]]);
  intros Hs; destruct (H3 Hs); split; auto.
Qed.
Lemma vr_cont now : vr now [QSched 0 KContinuous (KO 0)] = [QS (O:=O) (X:=X) (WContinuous 0 (KO 0))].
Proof. unfold vr. cbn [flat_map new_work hook app]. rewrite ?later_max. reflexivity. Qed.
Lemma mine_same tr e b w : match e with XSub | XEnd | XUp _ => True | _ => False end -> mine tr b w -> mine (tr ++ [e]) b w.
Proof. unfold mine. intros He [H1 H2]. destruct e; try destruct He; snocs; auto. Qed.

Definition mid ph now l q (w : W) : Prop :=
  core ph now (w_tr w) (w_shut w) /\ shaped shape l (q ++ vr now (w_rs w)) /\ Forall (@rq_ok O X) (w_rs w) /\ w_panic w = false /\
  (w_shut w = true -> passed (w_tr w)) /\
  (w_shut w = false ->
    (dfr w = clear_df /\ passed (w_tr w) /\ live l (q ++ vr now (w_rs w)) w) \/
    (exists c us cm er, (forall a, c <> Nxt a) /\ dfr w = mkDf (c :: us) false true cm er /\ owing down c (w_tr w) /\ w_over w = true)).

Lemma nested_mid ph now l q (w : W) c : mid ph now l q w -> mid ph now l q (nested op w c).
Proof.
  intros HM. assert (HM' := HM). destruct HM as (HC & HSh & F & Hp & Hsh & HL).
  unfold nested. destruct (w_born w) eqn:Hb; [|exact HM']. cbn [negb].
  assert (Fc : Forall (@rq_ok O X) (w_rs w ++ [QCancel 0])) by (apply Forall_app; split; [auto|repeat constructor]).
  assert (Sc : shaped shape l (q ++ vr now (w_rs w ++ [QCancel 0]))).
  { rewrite vr_app, app_assoc. apply shaped_more; auto. repeat constructor. }
  destruct (w_shut w) eqn:Hs.
  - assert (Mid : forall (w1 : W) e, w_shut w1 = true -> w_tr w1 = w_tr w ++ [XUp e] ->
      Forall (rq_ok (X:=X)) (w_rs w1) -> w_panic w1 = false -> shaped shape l (q ++ vr now (w_rs w1)) -> mid ph now l q w1).
    { intros w1 e E1 E2 E3 E4 E5. unfold mid. rewrite E1, E2. split; [|split; [auto|split; [auto|split; [auto|split; [|discriminate]]]]].
      - apply core_note; simpl; auto.
      - intros _. apply ends_snoc; auto. intros x _ _ _ Ho. apply (c_open HC) in Ho. congruence. }
    destruct c as [a|x| |]; try (destruct (w_over w); [exact HM'|]); cbn [fallback_op].
    + apply Mid with (e := Nxt a); auto.
    + destruct (hold_eq (Err x) (set_over (note (XUp (Err x)) w))) as (s & ->).
      match goal with |- context [hold Uns ?w1] => destruct (hold_eq Uns w1) as (s' & ->) end. apply Mid with (e := Err x); auto.
    + destruct (hold_eq Cmp (set_over (note (XUp Cmp) w))) as (s & ->).
      match goal with |- context [hold Uns ?w1] => destruct (hold_eq Uns w1) as (s' & ->) end. apply Mid with (e := Cmp); auto.
    + match goal with |- context [hold Uns ?w1] => destruct (hold_eq Uns w1) as (s' & ->) end. apply Mid with (e := Uns); auto.
  - destruct (HL eq_refl) as [(Hd & Hpa & HV)|(x & us & cm & er & Hx & Hd & Hpa & Hov)].
    2: { rewrite Hov. destruct c; try exact HM'. cbn [fallback_op].
      assert (Hh : hold Uns (ask (QCancel 0) (set_over (note (XUp Uns) w))) = ask (QCancel 0) (set_over (note (XUp Uns) w))).
      { unfold hold. unfold dfr in *. lcbn. rewrite Hd. reflexivity. }
      rewrite Hh. unfold mid. lcbn. rewrite Hs. split; [apply core_note; simpl; auto|].
      split; [auto|split; [auto|split; [auto|split; [discriminate|]]]]. intros _. right. exists x, us, cm, er.
      unfold dfr in *. repeat (split; auto). apply owing_uns; auto. }
    assert (Right : forall c (w1 : W) us cm er, (forall a, c <> Nxt a) -> w_tr w1 = w_tr w ++ [XUp c] -> w_shut w1 = false -> w_over w1 = true ->
      w_rs w1 = w_rs w ++ [QCancel 0] -> w_panic w1 = false -> dfr w1 = mkDf (c :: us) false true cm er -> mid ph now l q w1).
    { intros c0 w1 us cm er E1 E2 E3 E4 E5 E6 E7. unfold mid. rewrite E2, E3, E4, E5, E6. split; [apply core_note; simpl; auto|].
      split; [auto|split; [auto|split; [auto|split; [discriminate|]]]]. intros _. right. exists c0, us, cm, er.
      repeat (split; auto). apply owing_start; auto. }
    destruct c as [a|x| |]; try (destruct (w_over w) eqn:Hov; [exact HM'|]); cbn [fallback_op].
    + unfold mid. lcbn. rewrite Hs. split; [apply core_note; simpl; auto|].
      split; [auto|split; [auto|split; [auto|split; [discriminate|]]]]. intros _. left. split; [exact Hd|].
      split; [apply ends_snoc; auto; intros c H1 H2; injection H1 as <-; destruct (H2 a); auto|].
      destruct HV as [L1 L2 L3]. split; lcbn; snocs; auto. rewrite Hb in *.
      refine (one_imp _ _ L2). intros. apply mine_same; simpl; auto.
    + destruct w as [[ct df] ? ? ? ? ? ?]. unfold dfr in Hd. cbn in Hd. subst df.
      eapply Right with (c := Err x); try reflexivity; auto. discriminate.
    + destruct w as [[ct df] ? ? ? ? ? ?]. unfold dfr in Hd. cbn in Hd. subst df.
      eapply Right with (c := Cmp); try reflexivity; auto. discriminate.
    + destruct w as [[ct df] ? ? ? ? ? ?]. unfold dfr in Hd. cbn in Hd. subst df.
      eapply Right with (c := Uns); try reflexivity; auto. discriminate.
Qed.
Lemma nested_shut (w : W) c : w_shut (nested op w c) = w_shut w.
Proof.
  assert (H : forall c (w1 : W), w_shut (hold c w1) = w_shut w1) by (intros c0 w1; destruct (hold_eq c0 w1) as (s & ->); auto).
  unfold nested. destruct (negb (w_born w)); auto.
  destruct c; try destruct (w_over w); auto; cbn [fallback_op]; rewrite ?H; cbn [ask w_shut]; rewrite ?H; auto.
Qed.
Lemma fold_mid ph now l q cs : forall w : W, mid ph now l q w ->
  mid ph now l q (fold_left (nested op) cs w) /\ w_shut (fold_left (nested op) cs w) = w_shut w.
Proof.
  induction cs as [|c cs IH]; intros w H; simpl; auto. destruct (IH _ (@nested_mid _ _ _ _ _ c H)) as [H1 H2].
  split; auto. rewrite H2. apply nested_shut.
Qed.

(** The destination is told the end. *)
Lemma hit_end c ph now l q (w : W) : core ph now (w_tr w) false -> w_shut w = false -> shaped shape l (q ++ vr now (w_rs w)) ->
  Forall (@rq_ok O X) (w_rs w) -> w_panic w = false -> (forall a, c <> Nxt a) -> passed (w_tr w ++ [XOut c]) ->
  fallen_loop down fb (w_tr w) (XOut c) -> mid ph now l q (hit c w) /\ w_shut (hit c w) = true.
Proof.
  intros HC Hs HSh F Hp Hc Hpa Hg. unfold TimeReModel.hit. rewrite Hs.
  assert (Hcl : closes down c (w_tr w) = true) by (destruct c; auto; edestruct Hc; eauto).
  destruct (@tell_open A A E (loop_st (option A) A E) O X false down c w Hs) as (rs & Ht & R1 & R2). rewrite Hcl in Ht, R2.
  assert (M : mid ph now l q (tell c w)).
  { rewrite Ht. unfold mid. lcbn. rewrite vr_app, R2, app_nil_r. split; [|split; [|split; [|split; [auto|split; [auto|discriminate]]]]].
    - rewrite <- Hcl. apply core_out; auto.
    - auto.
    - apply Forall_app; auto. }
  destruct (@fold_mid _ _ _ _ (answer (outs (w_tr (tell c w)))) _ M) as [M1 M2]. split; [exact M1|].
  cbv zeta. rewrite M2, Ht. auto.
Qed.

Lemma settle_mid ph now l q (w : W) : mid ph now l q w ->
  Forall (@rq_ok O X) (w_rs (settle w)) /\ P ph now l (q ++ vr now (w_rs (settle w))) (settle w).
Proof.
  intros (HC & HSh & F & Hp & Hsh & HL). destruct (w_shut w) eqn:Hs.
  { destruct (settle_shut op answer false down w Hs) as (s & -> & Hq).
    unfold P. lcbn. rewrite Hs. split; [auto|]. split; [auto|]. split; [auto|]. split; [discriminate|]. split; [|auto].
    split; lcbn; auto. }
  destruct (HL eq_refl) as [(Hd & Hpa & HV)|(c & us & cm & er & Hc & Hd & Hpa & Hov)].
  - rewrite (settle_none op answer false down w) by (rewrite Hd; auto). split; [auto|]. unfold P. rewrite Hs. split; [auto|].
    split; [auto|]. split; [auto|]. split; [|auto]. split; auto; [rewrite Hd; auto|]. unfold flagged. rewrite Hd. discriminate.
  - destruct (@hit_end c ph now l q (set_df (mkDf [] false true cm er) w)) as [M1 M2]; auto.
    { apply owing_paid; auto. }
    { lcbn. destruct c; [edestruct Hc; eauto| | |]; cbn; (split; [apply (core_isopen HC); auto|apply (owing_lately Hpa)]). }
    assert (Eq : exists s, apply_one op answer tell (set_df (mkDf [] false true cm er) w) c = set_df s (hit c (set_df (mkDf [] false true cm er) w))).
    { unfold apply_one. rewrite (eq_refl : df_closed (dfr (set_df (mkDf [] false true cm er) w)) = false).
      destruct c; [edestruct Hc; eauto| | |]; eexists; reflexivity. }
    destruct Eq as (s & Eq). destruct (settle_end op answer false down w Hd) as (s' & Es & Hq); [rewrite Eq; exact M2|].
    rewrite Es, Eq, set_df_twice. destruct M1 as (N1 & N2 & N3 & N4 & N5 & N6). rewrite M2 in *. split; [exact N3|].
    unfold P. lcbn. rewrite M2. split; [auto|]. split; [auto|]. split; [discriminate|]. split; [|auto]. split; lcbn; auto.
Qed.

Lemma rest_same (w w' : W) : rest w -> w_st w' = mkLp (ctr w') (dfr w) -> w_shut w' = w_shut w -> w_panic w' = w_panic w -> rest w'.
Proof.
  intros [R1 R2 R3] E1 E2 E3. unfold flagged in *. split; unfold flagged, dfr in *; rewrite ?E1, ?E2, ?E3; auto.
Qed.
Lemma rest_shut (w : W) : df_q (dfr w) = [] -> w_panic w = false -> w_shut w = true -> rest w.
Proof. intros. split; auto. Qed.

Lemma Hcmd ph now l q (w : W) c : is_up c -> Forall (@rq_ok O X) (w_rs w) ->
  P ph now l (q ++ vr now (w_rs w)) w ->
  Forall (@rq_ok O X) (w_rs (do_cmd T down w c)) /\
  P ph now l (q ++ vr now (w_rs (do_cmd T down w c))) (do_cmd T down w c).
Proof.
  intros Hc F HP. assert (HP' := HP). destruct HP as (HC & HSh & HL & HR & Hpa).
  assert (St : w_st w = mkLp (ctr w) (dfr w)) by (unfold ctr, dfr; destruct (w_st w); auto).
  destruct c as [|c|r]; [| |destruct Hc].
  - cbn [do_cmd]. destruct (w_born w) eqn:Hb; [split; auto|].
    unfold P. cbn [fallback_loop t_sub]. wcbn. split. { rqs. }
    rewrite vr_app, app_assoc. rewrite vr_cont. split; [|split; [|split; [|split]]].
    + apply core_note; simpl; auto.
    + apply shaped_more; auto. repeat constructor. exists 0, 0. auto.
    + intros Hs. destruct (HL Hs) as [L1 L2 L3]. rewrite Hb in *. destruct L2 as (-> & L2 & L4 & L5).
      assert (Hn : since (w_tr w) = None) by (destruct (since (w_tr w)); [discriminate|auto]).
      split; lcbn; snocs; rewrite ?Hn; auto.
      rewrite L2. constructor. split; snocs; auto. rewrite L4. eauto.
    + apply (rest_same _ HR); auto.
    + apply ends_snoc; auto. discriminate.
  - cbn [do_cmd]. unfold up. destruct (w_born w) eqn:Hb; [|split; auto]. cbn [negb].
    (* the end *)
    assert (Fc : Forall (@rq_ok O X) (w_rs w ++ [QCancel 0])) by (apply Forall_app; split; [auto|repeat constructor]).
    assert (Sc : shaped shape l (q ++ vr now (w_rs w ++ [QCancel 0]))).
    { rewrite vr_app, app_assoc. apply shaped_more; auto. repeat constructor. }
    set (tl := shared op answer tell).
    assert (Shut : forall c (w1 : W), w_shut w = true -> w_shut w1 = true -> df_q (dfr w1) = [] -> w_panic w1 = false ->
      w_tr w1 = w_tr w ++ [XUp c] -> Forall (@rq_ok O X) (w_rs w1) -> shaped shape l (q ++ vr now (w_rs w1)) ->
      Forall (@rq_ok O X) (w_rs w1) /\ P ph now l (q ++ vr now (w_rs w1)) w1).
    { intros c0 w1 E0 E1 E2 E3 E4 E5 E6. split; auto. unfold P. rewrite E1, E4. rewrite E0 in HC.
      split; [apply core_note; simpl; auto|]. split; [auto|]. split; [discriminate|]. split; [apply rest_shut; auto|].
      apply ends_snoc; auto. intros x _ _ _ Ho. apply (c_open HC) in Ho. discriminate. }
    assert (Told : forall c (w1 : W), w_shut w = false -> (forall a, c <> Nxt a) -> w_shut w1 = true -> df_q (dfr w1) = [] -> w_panic w1 = false ->
      w_tr w1 = (w_tr w ++ [XUp c]) ++ [XOut c] -> Forall (@rq_ok O X) (w_rs w1) -> shaped shape l (q ++ vr now (w_rs w1)) ->
      Forall (@rq_ok O X) (w_rs w1) /\ P ph now l (q ++ vr now (w_rs w1)) w1).
    { intros c0 w1 E0 Hc0 E1 E2 E3 E4 E5 E6. split; auto. unfold P. rewrite E1, E4. rewrite E0 in HC.
      assert (Hcl : closes down c0 (w_tr w ++ [XUp c0]) = true) by (destruct c0; auto; edestruct Hc0; eauto).
      assert (Op : open down (w_tr w ++ [XUp c0])) by (rewrite open_same by discriminate; apply (core_isopen HC); auto).
      split; [|split; [auto|split; [discriminate|split; [apply rest_shut; auto|apply owing_paid; auto; apply owing_start; auto]]]].
      rewrite <- Hcl. apply core_out; [apply core_note; simpl; auto| |auto].
      destruct c0; [edestruct Hc0; eauto| | |]; cbn; (split; [exact Op|exists (w_tr w), []; split; [auto|constructor]]). }
    assert (Shutter : forall w1 : W, w_shut w1 = true -> df_q (dfr w1) = [] -> w_panic w1 = false ->
      exists s, tl Uns w1 = set_df s w1 /\ df_q s = []).
    { intros w1 E1 E2 E3. apply (shared_shut op answer false down Uns); auto. apply rest_shut; auto. }
    assert (Finish : forall c, (forall a, c <> Nxt a) -> let w1 := tl Uns (ask (QCancel 0) (tl c (set_over (note (XUp c) w)))) in
      Forall (@rq_ok O X) (w_rs w1) /\ P ph now l (q ++ vr now (w_rs w1)) w1).
    { intros c0 Hc0. assert (HR1 : rest (set_over (note (XUp c0) w))) by (apply (rest_same _ HR); auto). cbv zeta.
      destruct (w_shut w) eqn:Hs.
      - destruct (shared_shut op answer false down c0 HR1 Hs) as (s & E1 & Hq). fold tl in E1. rewrite E1.
        destruct (Shutter (ask (QCancel 0) (set_df s (set_over (note (XUp c0) w))))) as (s' & -> & Hq'); auto. { apply (r_panic HR). }
        apply Shut with (c := c0); auto. apply (r_panic HR).
      - destruct (shared_open op answer false down HR1 Hs Hc0) as (s & E1 & Hq). fold tl in E1. rewrite E1.
        destruct (@tell_open A A E (loop_st (option A) A E) O X false down c0 (set_df s (set_over (note (XUp c0) w))) Hs) as (rs & E2 & R1 & R2).
        revert R2. rewrite E2. lcbn. assert (Hcl : closes down c0 (w_tr w ++ [XUp c0]) = true) by (destruct c0; auto; edestruct Hc0; eauto).
        rewrite Hcl. cbn [andb]. intros R2.
        match goal with |- context [tl Uns ?w1] => destruct (Shutter w1) as (s' & -> & Hq'); auto; [apply (r_panic HR)|] end.
        apply Told with (c := c0); auto; lcbn; [apply (r_panic HR)| |].
        + apply Forall_app; split; [apply Forall_app; split; auto|repeat constructor].
        + rewrite !vr_app, R2, app_nil_r, app_assoc. apply shaped_more; auto. repeat constructor. }
    destruct c as [a|x| |]; try (destruct (w_over w) eqn:Hov; [split; auto; fail|]); cbn [fallback_loop t_up t_torn fallback_op].
    + (* a value *)
      split; auto. unfold P. lcbn. split; [apply core_note; simpl; auto|]. split; [auto|]. split; [|split].
      * intros Hs. destruct (HL Hs) as [L1 L2 L3]. rewrite Hb in *. split; lcbn; snocs; rewrite ?Hb; auto.
        refine (one_imp _ _ L2). intros. apply mine_same; simpl; auto.
      * apply (rest_same _ HR); auto.
      * apply ends_snoc; auto. intros c H1 H2. injection H1 as <-. destruct (H2 a); auto.
    + apply Finish. discriminate.
    + apply Finish. discriminate.
    + fold tl. assert (HR1 : rest (ask (QCancel 0) (set_over (note (XUp Uns) w)))) by (apply (rest_same _ HR); auto).
      destruct (w_shut w) eqn:Hs.
      * destruct (Shutter (ask (QCancel 0) (set_over (note (XUp Uns) w)))) as (s' & -> & Hq'); auto; [apply (r_q HR1)|apply (r_panic HR)|].
        apply Shut with (c := Uns); auto. apply (r_panic HR).
      * destruct (shared_open op answer false down (c := Uns) HR1 Hs) as (s & E1 & Hq); [discriminate|]. fold tl in E1. rewrite E1.
        destruct (@tell_open A A E (loop_st (option A) A E) O X false down Uns (set_df s (ask (QCancel 0) (set_over (note (XUp Uns) w)))) Hs) as (rs & E2 & R1 & R2).
        revert R2. rewrite E2. lcbn. cbn [closes andb]. intros R2.
        match goal with |- Forall _ _ /\ P _ _ _ _ ?w1 => change (Forall (@rq_ok O X) (w_rs w1) /\ P ph now l (q ++ vr now (w_rs w1)) w1) end.
        apply Told with (c := Uns); auto; lcbn; [discriminate|apply (r_panic HR)| |].
        -- apply Forall_app; split; auto.
        -- rewrite vr_app, R2, app_nil_r. auto.
Qed.

Lemma Hrun fuel t now l1 wk l2 q (w : W) wk' r w' rs :
  P (Some t) now (l1 ++ (false, wk) :: l2) q w -> Forall (fun x => fst x = true) l1 -> owned wk = true ->
  wtick (run T down user) fuel wk t w = Some (wk', r, w', rs) ->
  Forall (@rq_ok O X) rs /\
  P (Some t) now (l1 ++ (if r then [] else [(true, wk')]) ++ l2) (q ++ vr now rs) w'.
Proof.
  intros (HC & Sh & HL & HR & Hpa) _ _. destruct (shaped_run _ _ _ Sh) as [(lst & i & ->) Sh'].
  cbn [wtick run fallback_loop t_run t_torn]. intros Y; injection Y as <- <- <- <-.
  assert (Hsh : shape (WContinuous (Nat.max lst t) (KO (S i)))) by (unfold shape; eauto).
  specialize (Sh' false _ Hsh).
  set (a := match ctr (clear w) with Some a => a | None => fb t i end).
  set (w1 := set_ct None (clear w)).
  assert (HR1 : rest w1) by (apply (rest_same _ HR); auto).
  unfold through. rewrite (settle_none op answer false down w1 (r_q HR1)), (rest_closed HR1).
  apply settle_mid. destruct (w_shut w1) eqn:Hs.
  { unfold mid, w1. lcbn. assert (Hs' : w_shut w = true) by exact Hs. rewrite Hs' in *. cbn [vr flat_map]. rewrite app_nil_r.
    repeat (split; auto); try apply Sh'; try apply (r_panic HR). discriminate. }
  assert (Hs' : w_shut w = false) by exact Hs. rewrite Hs' in HC, HL.
  destruct (HL eq_refl) as [L1 L2 L3].
  destruct (w_born w) eqn:Hb; [|destruct L2 as [L2 _]; destruct l1; discriminate].
  apply one_run in L2. destruct L2 as (-> & -> & -> & (lst' & L2) & L4). injection L2 as <- ->.
  assert (Hd0 : dfr w1 = clear_df).
  { destruct HR1 as [R3 R4 R5]. unfold flagged in R5. destruct (dfr w1) as [dq [] [] [] []];
    cbn in *; subst; rewrite ?Hs in R5; try discriminate (R5 eq_refl); auto. }
  unfold TimeReModel.hit. rewrite Hs. apply fold_mid.
  destruct (@tell_open A A E (loop_st (option A) A E) O X false down (Nxt a) w1 Hs) as (rs & -> & R1 & R2).
  cbn [app] in *. unfold mid. unfold w1 in *. lcbn. cbn [app]. rewrite R2, andb_false_r.
  assert (Hg : fallen_loop down fb (w_tr w) (XOut (Nxt a))).
  { cbn. split; [apply (core_isopen HC); auto|]. split; [apply (c_tick HC)|]. split; [auto|].
    unfold a, ctr in *. cbn [clear w_st]. rewrite L3. rewrite (c_given HC). reflexivity. }
  assert (Hp1 : passed (w_tr w ++ [XOut (Nxt a)])) by (apply ends_snoc; auto; discriminate).
  split; [apply core_out; auto|]. split; [auto|]. split; [auto|]. split; [apply (r_panic HR)|]. split; [auto|].
  intros Hcl. left. split; [exact Hd0|]. split; [exact Hp1|].
  split; lcbn; snocs; rewrite ?Hb; auto. constructor. split; snocs; [|rewrite L4; auto].
  rewrite app_length, Nat.add_1_r. eauto.
Qed.

Lemma Hbegin now l q (w : W) u : P None now l q w -> Forall (fun x => fst x = true) l ->
  P (Some u) (Nat.max now u) (map (fun x => (false, snd x)) l) q (note (XTick u) w).
Proof.
  intros (HC & Sh & HL & HR & Hpa) F. unfold P. wcbn. split; [|split; [|split; [|split]]].
  - apply core_begin; simpl; auto.
  - apply shaped_begin; auto.
  - intros Hs. destruct (HL Hs) as [L1 L2 L3]. split; wcbn; snocs; auto.
    destruct (w_born w).
    + refine (one_begin _ _ L2). intros b wk [M1 M2]. split; snocs; auto.
    + destruct L2 as (-> & -> & L2 & L4). auto.
  - apply (rest_same _ HR); auto. lcbn. destruct (w_st w); auto.
  - apply ends_snoc; auto. discriminate.
Qed.

Lemma Hend t now l (w : W) : P (Some t) now l [] w -> Forall (fun x => fst x = true) l -> P None now l [] (note XEnd w).
Proof.
  intros (HC & Sh & HL & HR & Hpa) F. unfold P. wcbn. split; [|split; [auto|split; [|split]]].
  - apply (@core_end _ _ _ _ _ _ _ t); auto. simpl. intros Ho. apply (c_open HC) in Ho.
    destruct (HL Ho) as [L1 L2 L3]. intros Hsi. rewrite L1 in L2. destruct (since (w_tr w)); [|destruct Hsi; auto].
    cbn [some] in L2. apply one_end in L2; auto. destruct L2 as (wk & _ & L2). auto.
  - intros Hs. destruct (HL Hs) as [L1 L2 L3]. split; wcbn; snocs; auto.
    destruct (w_born w); auto. refine (one_imp _ _ L2). intros. apply mine_same; simpl; auto.
  - apply (rest_same _ HR); auto. lcbn. destruct (w_st w); auto.
  - apply ends_snoc; auto. discriminate.
Qed.

Lemma HS ph now l wk q (w : W) : P ph now l (QS wk :: q) w -> owned wk = true -> P ph now (l ++ [(false, wk)]) q w.
Proof.
  intros (HC & Sh & HL & HR) _. split; [auto|split; [apply shaped_HS; auto|split; [|auto]]].
  intros Hs. destruct (HL Hs) as [L1 L2 L3]. split; auto.
  destruct (w_born w); [apply one_HS; auto|]. destruct L2 as (_ & L2 & _). discriminate.
Qed.
Lemma HC ph now l q (w : W) : P ph now l (QC _ _ :: q) w -> P ph now [] q w.
Proof.
  intros (HC & Sh & HL & HR). split; [auto|split; [eapply shaped_HC; eauto|split; [|auto]]].
  intros Hs. destruct (HL Hs) as [L1 L2 L3]. exfalso.
  destruct (w_born w); [eapply one_HC; eauto|]. destruct L2 as (_ & L2 & _). discriminate.
Qed.
Lemma Hinit : P None 0 [] [] (mkW (t_new T) false false false false [] []).
Proof.
  unfold P. wcbn. split; [apply core_init|]. split; [split; constructor|].
  split; [|split; [split; cbn; auto; discriminate|apply ends_nil]]. intros _. split; cbn; auto.
Qed.

Theorem fallback_loop_ok fuel depth h m : syss T down user fuel (start T depth) h = Fine m ->
  let tr := w_tr (m_world m) in
  always (fallen_loop down fb) tr /\ ends_pass down tr /\ w_panic (m_world m) = false.
Proof.
  intros H.
  destruct (@lift_any _ _ _ _ _ _ T down user P Hclear Hcmd Hrun Hbegin Hend HS HC Hinit _ _ _ _ H) as (l & q & HP & F).
  destruct HP as (HC & Sh & HL & HR & Hpa). split; [apply (c_good HC)|split; [auto|apply (r_panic HR)]].
Qed.
End Fallback.
