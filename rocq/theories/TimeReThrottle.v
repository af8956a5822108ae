(** throttle_time, with a destination that calls the source back. While the destination is not told
    anything by the task, the operator does what it does in TimeModel.v, so that what is known of it
    there (TimeThrottle.v) is used here. *)
From Coq Require Import Permutation.
From Verif Require Import Base SubscrModel SchedModel SchedProofs SchedExec TimeModel TimeLift TimeSpec TimeProofs
  TimeThrottle TimeReModel TimeReSpec TimeReProofs TimeReMoreModel TimeReMoreSpec TimeReMoreProofs.
Set Implicit Arguments.

Section Throttle.
Variables A E X : Type.
Variable d : nat.
Variables leading trailing : bool.
Variable down : list (ncall A E) -> bool * list (req X).
Variable user : X -> nat -> list (tev A A E) -> X * bool * list (cmd A E X).
Variable answer : list (ncall A E) -> list (ncall A E).
Notation O := unit.
Notation S := (throttle_st A).
Notation W := (world A A E (loop_st (throttle_st A) A E) O X).
Notation W0 := (world A A E (throttle_st A) O X).
Notation K := (clo O X).
Notation T := (throttle_loop X answer d leading trailing).
Notation T0 := (@throttle A E X d leading trailing).
Notation op := (@throttle_op A E X d leading trailing).
Notation tell := (tell true down).
Notation hit := (hit op answer tell).
Notation settle := (settle op answer tell).
Notation through := (through op answer tell).
Notation shared := (shared op answer tell).
Notation clear_df := (mkDf [] false false false false).
Notation passed := (errors_pass down).
Definition late (x : E) (p : list (tev A A E)) : Prop := lately (XUp (Err x)) p.
Notation good := (good d leading trailing down late).
Notation ans := (@ans A E leading false).
Notation core := (core down good ans).
Notation P0 := (P d leading trailing down false late).
Notation shape := (shape (X:=X)).

Lemma Hlate x p : last_is p (XUp (Err x)) -> late x p.
Proof. intros (p' & ->). exists p', []. split; [auto|constructor]. Qed.

(** Without what was deferred. *)
Definition proj (w : W) : W0 := mkW (ctr w) (w_born w) (w_shut w) (w_over w) (w_panic w) (w_tr w) (w_rs w).
Definition quiet (w : W) : Prop := df_q (dfr w) = [] /\ (flagged w = true -> w_shut w = true).

Lemma asks_proj rs : forall w : W, proj (fold_left (fun w r => ask (theirs r) w) rs w) = fold_left (fun w r => ask (theirs r) w) rs (proj w).
Proof. induction rs as [|r rs IH]; intros w; [reflexivity|]. cbn [fold_left]. rewrite IH. reflexivity. Qed.
Lemma shut_proj (w : W) : proj (shut true w) = shut true (proj w).
Proof. unfold shut. cbn [proj w_shut]. destruct (w_shut w); reflexivity. Qed.
Lemma tell_proj c (w : W) : proj (tell c w) = tell c (proj w).
Proof.
  unfold TimeModel.tell. cbn [proj w_shut]. destruct (w_shut w); [reflexivity|].
  change (note (XOut c) (proj w)) with (proj (note (XOut c) w)). change (w_tr (proj ?w1)) with (w_tr w1).
  destruct (down (outs (w_tr (note (XOut c) w)))) as [b rs]. rewrite <- asks_proj.
  destruct c; try destruct b; rewrite ?shut_proj; reflexivity.
Qed.
Lemma tell_dfr c (w : W) : dfr (tell c w) = dfr w.
Proof.
  destruct (w_shut w) eqn:Hs; [rewrite tell_shut; auto|].
  destruct (@tell_open A A E (loop_st S A E) O X true down c w Hs) as (rs & -> & _). reflexivity.
Qed.
Lemma quiet_closed (w : W) : quiet w -> is_closed w = w_shut w.
Proof. intros [H1 H3]. unfold is_closed. destruct (flagged w); [rewrite H3|]; auto. Qed.
Lemma quiet_open (w : W) : quiet w -> w_shut w = false -> dfr w = clear_df.
Proof.
  intros [H1 H2] Hs. rewrite Hs in H2. unfold flagged in H2. destruct (dfr w) as [dq [] [] [] []]; cbn in H1, H2; subst; try discriminate (H2 eq_refl). auto.
Qed.
Lemma tell_closes c (w : W) : (forall a, c <> Nxt a) -> w_shut (tell c w) = true.
Proof.
  intros Hc. destruct (w_shut w) eqn:Hs; [rewrite tell_shut; auto|].
  destruct (@tell_open A A E (loop_st S A E) O X true down c w Hs) as (rs & -> & _). cbn [w_shut].
  destruct c; auto; edestruct Hc; eauto.
Qed.
Lemma quiet_same (w w' : W) : quiet w -> dfr w' = dfr w -> (w_shut w = true -> w_shut w' = true) -> quiet w'.
Proof. unfold quiet, flagged. intros [H1 H2] -> H3. auto. Qed.
Lemma tell_mono c (w : W) : w_shut w = true -> w_shut (tell c w) = true.
Proof. intros H. rewrite tell_shut; auto. Qed.

Lemma shared_proj c (w : W) : quiet w -> proj (shared c w) = tell c (proj w) /\ quiet (shared c w) /\ ctr (shared c w) = ctr w /\
  w_tr (shared c w) = w_tr (tell c w).
Proof.
  intros Q. assert (Q' := Q). destruct Q' as [H1 H3]. unfold TimeReModel.shared. rewrite (settle_none op answer true down w H1).
  fold (is_closed w). rewrite (quiet_closed Q). destruct (w_shut w) eqn:Hs.
  - assert (Z : proj w = tell c (proj w)) by (rewrite tell_shut; auto).
    assert (Z' : w_tr w = w_tr (tell c w)) by (rewrite tell_shut; auto).
    destruct c; auto. destruct (df_uns (dfr w)); auto. rewrite !tell_shut by auto. repeat split; auto.
  - assert (Hu : df_uns (dfr w) = false).
    { destruct (df_uns (dfr w)) eqn:Hu; auto. discriminate H3. unfold flagged. rewrite Hu, !orb_true_r. auto. }
    rewrite Hu.
    assert (Gen : forall c s, (forall a, c <> Nxt a) -> df_q s = [] -> proj (tell c (set_df s w)) = tell c (proj w) /\ quiet (tell c (set_df s w)) /\
      ctr (tell c (set_df s w)) = ctr w /\ w_tr (tell c (set_df s w)) = w_tr (tell c w)).
    { intros c0 s Hc Hq. split; [rewrite tell_proj; auto|].
      split; [split; [rewrite tell_dfr; auto|intros _; apply tell_closes; auto]|].
      destruct (@tell_open A A E (loop_st S A E) O X true down c0 (set_df s w) Hs) as (rs & -> & _).
      destruct (@tell_open A A E (loop_st S A E) O X true down c0 w Hs) as (rs' & -> & _). auto. }
    destruct c as [a|x| |]; [|refine (Gen _ _ _ _); [intros ? ?; discriminate|auto]..].
    split; [apply tell_proj|]. split; [split; [rewrite tell_dfr; auto|]|].
    + unfold flagged in *. rewrite tell_dfr. intros Hf. discriminate (H3 Hf).
    + destruct (@tell_open A A E (loop_st S A E) O X true down (Nxt a) w Hs) as (rs & -> & _). auto.
Qed.

(** A call made on the operator while no task of it runs. *)
Lemma cmd_proj (w : W) c : quiet w -> is_up c -> proj (do_cmd T down w c) = do_cmd T0 down (proj w) c /\ quiet (do_cmd T down w c).
Proof.
  intros Q Hc. destruct c as [|c|r]; [| |destruct Hc].
  - cbn [do_cmd]. cbn [proj w_born]. destruct (w_born w); [auto|]. split; [reflexivity|]. apply (quiet_same _ Q); auto.
  - cbn [do_cmd]. unfold up. cbn [proj w_born w_over]. destruct (w_born w) eqn:Hb; [|split; [unfold proj; auto|exact Q]]. cbn [negb].
    assert (Q1 : forall e, quiet (note (XUp e) w)) by (intros; apply (quiet_same _ Q); auto).
    assert (Q2 : forall e, quiet (set_over (note (XUp e) w))) by (intros; apply (quiet_same _ Q); auto).
    assert (Set_q : forall s (w1 : W), quiet w1 -> quiet (set_ct s w1)) by (intros s w1 H; apply (quiet_same _ H); auto).
    assert (Ask_q : forall r (w1 : W), quiet w1 -> quiet (ask r w1)) by (intros s w1 H; apply (quiet_same _ H); auto).
    destruct c as [a|x| |]; try (destruct (w_over w) eqn:Hov; [split; [reflexivity|exact Q]; fail|]);
      cbn [throttle_loop throttle t_up t_torn throttle_up throttle_op];
      assert (SP := shared_proj); set (sh := TimeReModel.shared op answer tell) in *; clearbody sh.
    + change (ctr (note (XUp (Nxt a)) w)) with (ctr w). cbn [note w_st]. change (w_st (proj w)) with (ctr w). destruct (th_deadline (ctr w)) as [dl|] eqn:Hdl.
      * destruct (th_last (ctr w) <? dl); [destruct trailing|]; (split; [reflexivity|auto]).
      * destruct leading; [|destruct trailing; (split; [reflexivity|auto])].
        match goal with |- context [sh (Nxt a) ?w1] => destruct (SP (Nxt a) w1) as (E1 & E2 & _); [solve [auto]|] end.
        split; [|auto]. change (proj (ask ?r ?w1)) with (ask r (proj w1)). rewrite E1. reflexivity.
    + match goal with |- context [sh (Err x) ?w1] => destruct (SP (Err x) w1) as (E1 & E2 & _); [solve [auto]|] end.
      split; [|auto]. rewrite E1. reflexivity.
    + change (ctr (set_over (note (XUp Cmp) w))) with (ctr w). cbn [note set_over w_st]. change (w_st (proj w)) with (ctr w). destruct (th_idle trailing (ctr w)).
      * match goal with |- context [sh Cmp ?w1] => destruct (SP Cmp w1) as (E1 & E2 & _); [solve [auto]|] end.
        split; [|auto]. rewrite E1. reflexivity.
      * split; [reflexivity|auto].
    + change (ctr (set_over (note (XUp Uns) w))) with (ctr w). cbn [note set_over w_st w_shut]. change (w_st (proj w)) with (ctr w). change (w_shut (proj w)) with (w_shut w). rewrite (quiet_closed (Q2 Uns)).
      cbn [note set_over w_shut]. destruct (w_shut w || th_done (ctr w) || th_off (ctr w)); [split; [reflexivity|auto]|].
      destruct (th_idle trailing (ctr w)).
      * match goal with |- context [sh Uns ?w1] => destruct (SP Uns w1) as (E1 & E2 & _); [solve [auto]|] end.
        split; [|auto]. rewrite E1. reflexivity.
      * split; [reflexivity|auto].
Qed.

Lemma tell_tr {S0} c (w : world A A E S0 O X) : w_tr (tell c w) = if w_shut w then w_tr w else w_tr w ++ [XOut c].
Proof.
  destruct (w_shut w) eqn:Hs; [rewrite tell_shut; auto|].
  destruct (@tell_open A A E S0 O X true down c w Hs) as (rs & -> & _). reflexivity.
Qed.
Lemma cmd_passed (w : W0) c : is_up c -> (open down (w_tr w) -> w_shut w = false) -> passed (w_tr w) ->
  passed (w_tr (do_cmd T0 down w c)).
Proof.
  intros Hc Ho Hp. destruct c as [|c|r]; [| |destruct Hc].
  - cbn [do_cmd]. destruct (w_born w); auto. cbn [throttle t_sub]. wcbn. apply passed_snoc; auto. discriminate.
  - cbn [do_cmd]. unfold up. destruct (w_born w); auto. cbn [negb].
    assert (N : forall c, (forall x, c <> Err x) -> passed (w_tr w ++ [XUp c])).
    { intros c0 H0. apply passed_snoc; auto. intros x Hx _. injection Hx as ->. apply (H0 x). auto. }
    assert (N2 : forall c o, (forall x, c <> Err x) -> passed (if w_shut w then w_tr w ++ [XUp c] else (w_tr w ++ [XUp c]) ++ [XOut o])).
    { intros c0 o H0. destruct (w_shut w); auto. apply passed_snoc; auto. discriminate. }
    destruct c as [a|x| |]; try (destruct (w_over w); [exact Hp|]); cbn [throttle t_up t_torn throttle_up].
    + repeat match goal with
      | |- context [match ?y with Some _ => _ | None => _ end] => destruct y
      | |- context [if ?y then _ else _] => destruct y eqn:?
      end; wcbn; rewrite ?tell_tr; wcbn; try (apply N; discriminate); try (apply N2; discriminate).
    + rewrite tell_tr. wcbn. destruct (w_shut w) eqn:Hs.
      * apply passed_snoc; auto. intros y _ H. discriminate (Ho H).
      * apply owed_paid, owed_start. auto.
    + destruct (th_idle trailing _); wcbn; rewrite ?tell_tr; wcbn; [apply N2|apply N]; discriminate.
    + repeat match goal with |- context [if ?y then _ else _] => destruct y eqn:? end; wcbn; rewrite ?tell_tr; wcbn; try (apply N; discriminate); apply N2; discriminate.
Qed.

Notation perm tr := (exists rest, Permutation (values tr ++ rest) (map snd (pushes tr))).
(** The destination is closed. *)
Definition gone ph now (l : list (bool * work K)) q (w : W) : Prop :=
  w_shut w = true /\ core ph now (w_tr w) true /\ shaped shape l (q ++ vr now (w_rs w)) /\ perm (w_tr w) /\
  Forall (@rq_ok O X) (w_rs w) /\ passed (w_tr w).
(** The end of the source is in the queue. *)
Definition pending ph now (l : list (bool * work K)) q (w : W) : Prop :=
  w_shut w = false /\ core ph now (w_tr w) false /\ shaped shape l (q ++ vr now (w_rs w)) /\ perm (w_tr w) /\
  Forall (@rq_ok O X) (w_rs w) /\ w_over w = true /\
  exists c u cm er, dfr w = mkDf [c] false u cm er /\ flagged w = true /\
    match c with
    | Nxt _ => False
    | Err x => owed down x (w_tr w)
    | c => passed (w_tr w) /\ In (XUp c) (w_tr w)
    end.
(** The window is open, nothing is in the queue. *)
Definition open_ ph now l q (w : W) : Prop :=
  w_shut w = false /\ P0 ph now l (q ++ vr now (w_rs w)) (proj w) /\ Forall (@rq_ok O X) (w_rs w) /\ passed (w_tr w) /\
  dfr w = clear_df /\ th_deadline (ctr w) <> None.
Definition mid ph now l q (w : W) : Prop := gone ph now l q w \/ pending ph now l q w \/ open_ ph now l q w.

Lemma gone_note ph now l q (w w' : W) c rs : gone ph now l q w -> w_shut w' = true -> w_tr w' = w_tr w ++ [XUp c] ->
  w_rs w' = w_rs w ++ rs -> Forall (@rq_ok O X) rs -> Forall (fun x : qop O X => match x with QS w => shape w | QC _ _ => True end) (vr now rs) ->
  gone ph now l q w'.
Proof.
  intros (G1 & G2 & G3 & G4 & G5 & G6) E1 E2 E3 E4 E5. unfold gone. rewrite E1, E2, E3. split; [auto|]. split.
  { apply core_note; simpl; auto. }
  split; [rewrite vr_app, app_assoc; apply shaped_more; auto|]. split; [apply perm_note; simpl; auto|].
  split; [apply Forall_app; auto|]. apply passed_snoc; auto. intros x _ Ho. apply (c_open G2) in Ho. discriminate.
Qed.
Lemma nested_gone ph now l q (w : W) c : gone ph now l q w -> gone ph now l q (nested op w c).
Proof.
  intros G. assert (Hs : w_shut w = true) by apply G.
  unfold nested. destruct (w_born w); [|exact G]. cbn [negb].
  assert (K0 : forall (w' : W) c0, w_shut w' = true -> w_tr w' = w_tr w ++ [XUp c0] -> w_rs w' = w_rs w -> gone ph now l q w').
  { intros w' c0 E1 E2 E3. apply (@gone_note _ _ _ _ w w' c0 [] G); auto; [rewrite E3, app_nil_r; auto|constructor]. }
  assert (K1 : forall (w' : W) c0, w_shut w' = true -> w_tr w' = w_tr w ++ [XUp c0] -> w_rs w' = w_rs w ++ [QCancel 0] -> gone ph now l q w').
  { intros w' c0 E1 E2 E3. apply (@gone_note _ _ _ _ w w' c0 [QCancel 0] G); auto; repeat constructor. }
  assert (K2 : forall (w' : W) c0, w_shut w' = true -> w_tr w' = w_tr w ++ [XUp c0] -> w_rs w' = w_rs w ++ [QSched 0 KContinuous (KO Datatypes.tt)] -> gone ph now l q w').
  { intros w' c0 E1 E2 E3. apply (@gone_note _ _ _ _ w w' c0 [QSched 0 KContinuous (KO Datatypes.tt)] G); auto; [rqs|]. rewrite vr_cont. apply qs_ok. }
  destruct c as [a|x| |]; try (destruct (w_over w); [exact G|]); cbn [throttle_op].
  - destruct (th_deadline _) as [dl|].
    + destruct (_ <? _); [destruct trailing|]; apply K0 with (Nxt a); auto.
    + match goal with |- context [ask _ ?y] => set (w1 := y) end.
      assert (H1 : w_shut w1 = true /\ w_tr w1 = w_tr w ++ [XUp (Nxt a)] /\ w_rs w1 = w_rs w).
      { unfold w1. destruct leading; [|destruct trailing; auto].
        match goal with |- context [hold (Nxt a) ?y] => destruct (hold_eq (Nxt a) y) as (s & ->) end. auto. }
      destruct H1 as (H1 & H2 & H3). apply K2 with (Nxt a); auto. lcbn. rewrite H3. auto.
  - match goal with |- context [hold _ ?y] => destruct (hold_eq (Err x) y) as (s & ->) end. apply K1 with (Err x); auto.
  - destruct (th_idle _ _); [|apply K0 with Cmp; auto].
    match goal with |- context [hold _ ?y] => destruct (hold_eq Cmp y) as (s & ->) end. apply K1 with Cmp; auto.
  - destruct (_ || _ || _); [apply K0 with Uns; auto|]. destruct (th_idle _ _); [|apply K0 with Uns; auto].
    match goal with |- context [hold _ ?y] => destruct (hold_eq Uns y) as (s & ->) end. apply K1 with Uns; auto.
Qed.
Lemma nested_pending ph now l q (w : W) c : pending ph now l q w -> pending ph now l q (nested op w c).
Proof.
  intros HP. assert (HP' := HP). destruct HP' as (G1 & G2 & G3 & G4 & G5 & G6 & c0 & u & cm & er & G7 & G8 & G9).
  unfold nested. destruct (w_born w); [|exact HP]. cbn [negb]. rewrite G6. destruct c; try exact HP. cbn [throttle_op].
  change (flagged (set_over (note (XUp Uns) w))) with (flagged w). rewrite G8. cbn [orb].
  unfold pending. wcbn. rewrite G1. split; [auto|]. split; [apply core_note; simpl; auto|]. split; [auto|].
  split; [apply perm_note; simpl; auto|]. split; [auto|]. split; [auto|]. exists c0, u, cm, er. split; [exact G7|]. split; [exact G8|].
  destruct c0; auto.
  - apply owed_uns. auto.
  - destruct G9. split; [apply passed_snoc; auto; discriminate|apply in_or_app; auto].
  - destruct G9. split; [apply passed_snoc; auto; discriminate|apply in_or_app; auto].
Qed.
Lemma nested_open ph now l q (w : W) c : open_ ph now l q w -> pending ph now l q (nested op w c) \/ open_ ph now l q (nested op w c).
Proof.
  intros HO. assert (HO' := HO). destruct HO' as (G1 & G2 & G3 & G4 & G5 & G6).
  assert (Hf : flagged w = false) by (unfold flagged; rewrite G5; auto).
  assert (Eq : w_born w = true -> proj (nested op w c) = do_cmd T0 down (proj w) (CUp c) -> dfr (nested op w c) = clear_df ->
    w_shut (nested op w c) = false -> th_deadline (ctr (nested op w c)) <> None -> open_ ph now l q (nested op w c)).
  { intros _ E1 E2 E3 E4. destruct G2 as (HC & G2).
    destruct (@Hcmd _ _ _ d leading trailing down false late Hlate ph now l q (proj w) (CUp c) Logic.I G3 (conj HC G2)) as [F1 F2].
    assert (F3 : passed (w_tr (do_cmd T0 down (proj w) (CUp c)))).
    { apply cmd_passed; simpl; auto. }
    rewrite <- E1 in F1, F2, F3. unfold open_. auto 8. }
  assert (Pd : forall c0 (s : S), nested op w c = hold c0 (ask (QCancel 0) (set_ct s (set_over (note (XUp c0) w)))) -> (forall a, c0 <> Nxt a) ->
    pending ph now l q (nested op w c)).
  { intros c0 s -> Hc0. destruct G2 as (HC & HSh & HPm & HL). cbn [proj w_shut w_tr] in *. rewrite G1 in HC. destruct w as [[ct df] bo sh ov pa tr rs]. unfold dfr in G5. cbn in G1, G5. subst df sh.
    assert (Z : exists u cm er, hold c0 (ask (QCancel 0) (set_ct s (set_over (note (XUp c0) (mkW (mkLp ct clear_df) bo false ov pa tr rs))))) =
      mkW (mkLp s (mkDf [c0] false u cm er)) bo false true pa (tr ++ [XUp c0]) (rs ++ [QCancel 0]) /\ (cm || u || er) = true).
    { destruct c0; [edestruct Hc0; eauto| | |]; do 3 eexists; (split; [reflexivity|reflexivity]). }
    destruct Z as (u & cm & er & -> & Z). unfold pending. wcbn. split; [auto|]. split; [apply core_note; simpl; auto; destruct c0; auto; edestruct Hc0; eauto|].
    split; [rewrite vr_app, app_assoc; apply shaped_more; [auto|repeat constructor]|]. split; [apply perm_note; simpl; auto|].
    split; [apply Forall_app; split; [auto|repeat constructor]|]. split; [auto|]. exists c0, u, cm, er. split; [auto|]. split; [exact Z|].
    destruct c0; [edestruct Hc0; eauto|apply owed_start; auto| |]; (split; [apply passed_snoc; auto; discriminate|apply in_or_app; simpl; auto]). }
  revert Eq Pd. unfold nested. cbn [do_cmd]. unfold up. change (w_born (proj w)) with (w_born w). change (w_over (proj w)) with (w_over w).
  destruct (w_born w) eqn:Hb; [|intros; right; exact HO]. cbn [negb].
  destruct c as [a|x| |]; try (destruct (w_over w) eqn:Hov; [intros; right; exact HO|]);
    cbn [throttle_op throttle t_up t_torn throttle_up note set_over w_st w_shut]; change (w_st (proj w)) with (ctr w); change (w_shut (proj w)) with (w_shut w).
  - change (ctr (note (XUp (Nxt a)) w)) with (ctr w). destruct (th_deadline (ctr w)) as [dl|] eqn:Hdl; [|destruct G6; auto].
    intros Eq _. right. destruct (th_last (ctr w) <? dl); [destruct trailing|]; apply Eq; auto; try discriminate.
    change (ctr (note (XUp (Nxt a)) w)) with (ctr w). rewrite Hdl. discriminate.
  - intros _ Pd. left. eapply Pd; [reflexivity|discriminate].
  - change (ctr (set_over (note (XUp Cmp) w))) with (ctr w). destruct (th_idle trailing (ctr w)); intros Eq Pd.
    + left. eapply Pd; [reflexivity|discriminate].
    + right. apply Eq; auto.
  - change (ctr (set_over (note (XUp Uns) w))) with (ctr w). change (flagged (set_over (note (XUp Uns) w))) with (flagged w). rewrite Hf, G1. cbn [orb].
    destruct (th_done (ctr w) || th_off (ctr w)); [intros Eq _; right; apply Eq; auto|].
    destruct (th_idle trailing (ctr w)); intros Eq Pd.
    + left. eapply Pd; [reflexivity|discriminate].
    + right. apply Eq; auto.
Qed.
Lemma nested_mid ph now l q (w : W) c : mid ph now l q w -> mid ph now l q (nested op w c).
Proof.
  intros [H|[H|H]].
  - left. apply nested_gone; auto.
  - right. left. apply nested_pending; auto.
  - right. apply nested_open; auto.
Qed.
Lemma fold_mid ph now l q cs : forall w : W, mid ph now l q w -> mid ph now l q (fold_left (nested op) cs w).
Proof. induction cs as [|c cs IH]; intros w H; simpl; auto. apply IH, nested_mid, H. Qed.
Lemma fold_gone ph now l q cs : forall w : W, gone ph now l q w -> gone ph now l q (fold_left (nested op) cs w).
Proof. induction cs as [|c cs IH]; intros w H; simpl; auto. apply IH, nested_gone, H. Qed.

(** The destination is told the end. *)
Lemma hit_end c ph now l q (w : W) : w_shut w = false -> core ph now (w_tr w) false -> shaped shape l (q ++ vr now (w_rs w)) ->
  perm (w_tr w) -> Forall (@rq_ok O X) (w_rs w) -> (forall a, c <> Nxt a) -> passed (w_tr w ++ [XOut c]) ->
  good (w_tr w) (XOut c) -> gone ph now l q (hit c w).
Proof.
  intros Hs HC HSh HPm F Hc Hpa Hg. unfold TimeReModel.hit. rewrite Hs. apply fold_gone.
  assert (Hcl : closes down c (w_tr w) = true) by (destruct c; auto; edestruct Hc; eauto).
  destruct (@tell_open A A E (loop_st S A E) O X true down c w Hs) as (rs & -> & R1 & R2). rewrite Hcl in *.
  unfold gone. lcbn. split; [auto|]. split; [rewrite <- Hcl; apply core_out; auto|].
  split; [rewrite vr_app, app_assoc, R2; apply shaped_more; [auto|repeat constructor]|].
  split; [apply perm_note; [destruct c; auto; edestruct Hc; eauto|auto]|]. split; [apply Forall_app; auto|auto].
Qed.
Lemma settle_gone ph now l q (w : W) : gone ph now l q w -> gone ph now l q (settle w) /\ quiet (settle w).
Proof.
  intros G. assert (Hs : w_shut w = true) by apply G. destruct (settle_shut op answer true down w Hs) as (s & -> & Hq).
  split; [exact G|]. split; auto.
Qed.
Lemma settle_pending ph now l q (w : W) : pending ph now l q w -> gone ph now l q (settle w) /\ quiet (settle w).
Proof.
  intros (G1 & G2 & G3 & G4 & G5 & G6 & c & u & cm & er & G7 & G8 & G9).
  assert (Hc : forall a, c <> Nxt a) by (intros a ->; destruct G9).
  assert (G : gone ph now l q (hit c (set_df (mkDf [] false u cm er) w))).
  { apply hit_end; auto; lcbn.
    - destruct c; [edestruct Hc; eauto|apply owed_paid; auto| |]; destruct G9; apply passed_snoc; auto; discriminate.
    - split; [apply (core_isopen G2); auto|]. destruct c; [edestruct Hc; eauto|eapply owed_lately; eauto| |]; apply G9. }
  assert (Eq : exists s, apply_one op answer tell (set_df (mkDf [] false u cm er) w) c = set_df s (hit c (set_df (mkDf [] false u cm er) w))).
  { unfold apply_one. change (df_closed (dfr (set_df (mkDf [] false u cm er) w))) with false.
    destruct c; [edestruct Hc; eauto| | |]; eexists; reflexivity. }
  destruct Eq as (s & Eq). assert (Hs' := proj1 G).
  destruct (settle_end op answer true down w G7) as (s' & Es & Hq); [rewrite Eq; exact Hs'|].
  rewrite Es, Eq, set_df_twice. split; [exact G|]. split; auto.
Qed.
Lemma settle_mid ph now l q (w : W) : mid ph now l q w ->
  gone ph now l q (settle w) /\ quiet (settle w) \/ open_ ph now l q (settle w) /\ settle w = w.
Proof.
  intros [H|[H|H]].
  - left. apply settle_gone; auto.
  - left. apply settle_pending; auto.
  - right. rewrite (settle_none op answer true down w); [auto|]. destruct H as (_ & _ & _ & _ & -> & _). auto.
Qed.
Lemma gone_P ph now l q (w : W) : gone ph now l q w -> P0 ph now l (q ++ vr now (w_rs w)) (proj w).
Proof. intros (G1 & G2 & G3 & G4 & G5 & G6). unfold TimeThrottle.P. cbn [proj w_shut w_tr]. rewrite G1. split; [auto|split; [auto|split; [auto|discriminate]]]. Qed.

(** A call of the task that ends it. *)
Lemma through_end c ph now l q (w : W) : quiet w -> w_shut w = false -> core ph now (w_tr w) false -> shaped shape l (q ++ vr now (w_rs w)) ->
  perm (w_tr w) -> Forall (@rq_ok O X) (w_rs w) -> passed (w_tr w) -> c = Cmp \/ c = Uns -> In (XUp c) (w_tr w) ->
  gone ph now l q (through c w) /\ quiet (through c w).
Proof.
  intros Q Hs HC HSh HPm F Hpa Hc Hi. assert (Q' := Q). destruct Q' as [H1 H3].
  assert (G : forall s, gone ph now l q (hit c (set_df s w))).
  { intros s. apply hit_end; auto; lcbn.
    - destruct Hc; subst c; discriminate.
    - apply passed_snoc; auto. discriminate.
    - split; [apply (core_isopen HC); auto|]. destruct Hc; subst c; auto. }
  unfold TimeReMoreModel.through. rewrite (settle_none op answer true down w H1), (quiet_closed Q), Hs.
  destruct Hc; subst c.
  - apply settle_gone, G.
  - destruct (df_uns (dfr w)) eqn:Hu; [rewrite H3 in Hs; [discriminate|]; unfold flagged; rewrite Hu, !orb_true_r; auto|]. apply settle_gone, G.
Qed.
Lemma through_shut c (w : W) : quiet w -> w_shut w = true -> exists s, through c w = set_df s w /\ df_q s = [].
Proof.
  intros Q Hs. assert (Q' := Q). destruct Q' as [H1 H3].
  unfold TimeReMoreModel.through. rewrite (settle_none op answer true down w H1), (quiet_closed Q), Hs.
  assert (Z : exists s, settle w = set_df s w /\ df_q s = []) by (apply (settle_shut op answer true down); auto).
  destruct c; auto. destruct (df_uns (dfr w)); auto. unfold TimeReModel.hit. cbn [set_df st w_shut]. rewrite Hs, tell_shut by auto.
  match goal with |- context [settle ?y] => destruct (settle_shut op answer true down y Hs) as (s & -> & Hq) end.
  exists s. rewrite set_df_twice. auto.
Qed.

(** The task is about to tell the end. *)
Definition ending c ph now (l : list (bool * work K)) q (w : W) : Prop :=
  w_shut w = false /\ core ph now (w_tr w) false /\ shaped shape l (q ++ vr now (w_rs w)) /\ perm (w_tr w) /\
  Forall (@rq_ok O X) (w_rs w) /\ passed (w_tr w) /\ In (XUp c) (w_tr w) /\ w_over w = true /\ th_done (ctr w) || th_off (ctr w) = true /\ quiet w.
Lemma nested_ending c ph now l q (w : W) c0 : ending c ph now l q w -> ending c ph now l q (nested op w c0).
Proof.
  intros H. assert (H' := H). destruct H' as (G1 & G2 & G3 & G4 & G5 & G6 & G7 & G8 & G9 & G10).
  unfold nested. destruct (w_born w); [|exact H]. cbn [negb]. rewrite G8. destruct c0; try exact H. cbn [throttle_op].
  change (ctr (set_over (note (XUp Uns) w))) with (ctr w). rewrite <- orb_assoc, G9, orb_true_r.
  unfold ending. wcbn. rewrite G1. split; [auto|]. split; [apply core_note; simpl; auto|]. split; [auto|]. split; [apply perm_note; simpl; auto|].
  split; [auto|]. split; [apply passed_snoc; auto; discriminate|]. split; [apply in_or_app; auto|]. split; [auto|]. split; [auto|].
  apply (quiet_same _ G10); auto.
Qed.
Lemma fold_ending c ph now l q cs : forall w : W, ending c ph now l q w -> ending c ph now l q (fold_left (nested op) cs w).
Proof. induction cs as [|c0 cs IH]; intros w H; simpl; auto. apply IH, nested_ending, H. Qed.

Lemma task_shut t (w : W) : w_shut w = true -> quiet w -> let w' := snd (throttle_task answer d leading trailing tell t (clear w)) in
  w_tr w' = w_tr w /\ w_shut w' = true /\ w_rs w' = [] /\ quiet w'.
Proof.
  intros Hs Q. unfold throttle_task. change (ctr (clear w)) with (ctr w).
  assert (Q0 : forall s, quiet (set_ct s (clear w))) by (intros; apply (quiet_same _ Q); auto).
  assert (Z : forall c s, exists s', through c (set_ct s (clear w)) = set_df s' (set_ct s (clear w)) /\ df_q s' = []).
  { intros. apply through_shut; auto. }
  assert (Fin : forall s s', df_q s' = [] -> w_tr (set_df s' (set_ct s (clear w))) = w_tr w /\ w_shut (set_df s' (set_ct s (clear w))) = true /\
    w_rs (set_df s' (set_ct s (clear w))) = [] /\ quiet (set_df s' (set_ct s (clear w)))).
  { intros. split; [auto|]. split; [auto|]. split; [auto|]. split; auto. }
  assert (Fin0 : forall s, w_tr (set_ct s (clear w)) = w_tr w /\ w_shut (set_ct s (clear w)) = true /\
    w_rs (set_ct s (clear w)) = [] /\ quiet (set_ct s (clear w))) by auto.
  assert (Over : forall s (dn off go : bool), let w' := snd (if dn then (true, through Cmp (set_ct s (clear w))) else if off then (true, through Uns (set_ct s (clear w))) else (go, set_ct s (clear w))) in
    w_tr w' = w_tr w /\ w_shut w' = true /\ w_rs w' = [] /\ quiet w').
  { intros s dn off go. destruct dn; [|destruct off]; cbn [snd]; auto.
    - destruct (Z Cmp s) as (s' & -> & Hq). auto.
    - destruct (Z Uns s) as (s' & -> & Hq). auto. }
  destruct (th_deadline (ctr w)) as [dl|]; [|cbn [snd]; repeat split; auto; apply Q].
  destruct (t <? dl); [cbn [snd]; auto|]. destruct (dl <? t); [apply Over|].
  destruct (bool_dec trailing true) as [Ht|Ht].
  - rewrite Ht. rewrite Ht in Z, Over. destruct (th_value (ctr w)) as [a|]; [|apply Over].
    destruct (Z (Nxt a) (mkTh None t (Some dl) (th_done (ctr w)) (th_off (ctr w)))) as (s' & -> & Hq).
    assert (Hcl : is_closed (set_df s' (set_ct (mkTh None t (Some dl) (th_done (ctr w)) (th_off (ctr w))) (clear w))) = true).
    { unfold is_closed. cbn [set_df set_ct st clear w_shut]. rewrite Hs, orb_true_r. auto. }
    rewrite Hcl. cbn [snd]. auto.
  - apply not_true_is_false in Ht. rewrite Ht. rewrite Ht in Z, Over. apply Over.
Qed.

Definition P ph now l q (w : W) : Prop := P0 ph now l q (proj w) /\ quiet w /\ passed (w_tr w).

Lemma gone_done ph now l q (w : W) : gone ph now l q w -> quiet w -> Forall (@rq_ok O X) (w_rs w) /\ P ph now l (q ++ vr now (w_rs w)) w.
Proof. intros G Q. split; [apply G|]. split; [apply gone_P; auto|]. split; [auto|apply G]. Qed.

Lemma Hclear ph now l q (w : W) : P ph now l q w <-> P ph now l q (clear w).
Proof. reflexivity. Qed.
Lemma Hcmd ph now l q (w : W) c : is_up c -> Forall (@rq_ok O X) (w_rs w) ->
  P ph now l (q ++ vr now (w_rs w)) w ->
  Forall (@rq_ok O X) (w_rs (do_cmd T down w c)) /\
  P ph now l (q ++ vr now (w_rs (do_cmd T down w c))) (do_cmd T down w c).
Proof.
  intros Hc F (HP & Q & Hpa). destruct (@cmd_proj w c Q Hc) as [E1 E2].
  destruct (@TimeThrottle.Hcmd _ _ _ d leading trailing down false late Hlate ph now l q (proj w) c Hc F HP) as [F1 F2].
  assert (F3 : passed (w_tr (do_cmd T0 down (proj w) c))).
  { apply cmd_passed; auto. destruct HP as (HC & _). apply (c_open HC). }
  rewrite <- E1 in F1, F2, F3. split; [exact F1|]. split; [exact F2|]. split; [exact E2|exact F3].
Qed.

Lemma vr_nil now : vr (O:=O) (X:=X) now [] = [].
Proof. reflexivity. Qed.
Lemma through_open a (w : W) : quiet w -> w_shut w = false ->
  through (Nxt a) w = settle (fold_left (nested op) (answer (outs (w_tr (tell (Nxt a) w)))) (tell (Nxt a) w)).
Proof.
  intros Q Hs. unfold TimeReMoreModel.through. rewrite (settle_none op answer true down w) by apply Q.
  rewrite (quiet_closed Q), Hs. unfold TimeReModel.hit. rewrite Hs. reflexivity.
Qed.
Local Opaque vr TimeReModel.settle TimeReMoreModel.through.
Lemma Hrun fuel t now l1 wk l2 q (w : W) wk' r w' rs :
  P (Some t) now (l1 ++ (false, wk) :: l2) q w -> Forall (fun x => fst x = true) l1 -> owned wk = true ->
  wtick (run T down user) fuel wk t w = Some (wk', r, w', rs) ->
  Forall (@rq_ok O X) rs /\
  P (Some t) now (l1 ++ (if r then [] else [(true, wk')]) ++ l2) (q ++ vr now rs) w'.
Proof.
  intros (HP & Q & Hpa) Fl1 Hown. assert (HP' := HP). destruct HP' as (HC & Sh & HPm & HL). destruct (shaped_run _ _ _ Sh) as [(lst & ->) Sh'].
  cbn [wtick run throttle_loop t_run t_torn].
  destruct (throttle_task answer d leading trailing tell t (clear w)) as [done w1] eqn:Hr.
  intros Y; injection Y as <- <- <- <-.
  assert (Hsh : shape (WContinuous (Nat.max lst t) (KO Datatypes.tt))) by (unfold TimeThrottle.shape; eauto).
  change (w_tr (proj w)) with (w_tr w) in *. change (w_shut (proj w)) with (w_shut w) in *.
  destruct (w_shut w) eqn:Hs.
  { assert (Hx := task_shut t Hs Q). rewrite Hr in Hx. cbn [snd] in Hx. destruct Hx as (X1 & X2 & X3 & X4).
    rewrite X3. split; [constructor|]. split; [|split; [auto|rewrite X1; auto]].
    unfold TimeThrottle.P. cbn [proj w_tr w_shut]. rewrite X1, X2, vr_nil, app_nil_r.
    split; [auto|split; [apply Sh'; auto|split; [auto|discriminate]]]. }
  assert (Old : forall done0 w0, throttle_run trailing tell t (clear (proj w)) = (done0, w0) -> Forall (@rq_ok O X) (w_rs w0) /\
    P0 (Some t) now (l1 ++ (if done0 then [] else [(true, WContinuous (Nat.max lst t) (KO Datatypes.tt))]) ++ l2) (q ++ vr now (w_rs w0)) w0).
  { intros done0 w0 H0. apply (@TimeThrottle.Hrun _ _ _ d leading trailing down user false late fuel t now l1 (WContinuous lst (KO Datatypes.tt)) l2 q (proj w)); auto.
    cbn [wtick run throttle t_run t_torn]. rewrite H0. reflexivity. }
  destruct (HL eq_refl) as [L1 L2 L3 L4 L5 L6 [rest L7] L8]. change (w_st (proj w)) with (ctr w) in *. change (w_over (proj w)) with (w_over w) in *.
  unfold throttle_task in Hr. change (ctr (clear w)) with (ctr w) in Hr.
  unfold throttle_run in Old. cbn [clear w_st] in Old. change (w_st (proj w)) with (ctr w) in Old.
  destruct (th_deadline (ctr w)) as [dl|] eqn:Hdl; [|destruct L1 as [L1 _]; destruct l1; discriminate].
  destruct L1 as [L1 _]. apply one_run in L1. destruct L1 as (-> & -> & -> & _). cbn [app] in *.
  assert (Qs : forall s, quiet (set_ct s (clear w))) by (intros; apply (quiet_same _ Q); auto).
  destruct (t <? dl) eqn:Hlt.
  { injection Hr as <- <-. destruct (Old _ _ eq_refl) as [F1 F2]. split; [exact F1|]. split; [exact F2|]. split; auto. }
  (* the window is over and there is no value *)
  assert (Close : forall v, throttle_run trailing tell t (clear (proj w)) = throttle_run trailing tell t (clear (proj w)) ->
    (th_done (ctr w) = false -> th_off (ctr w) = false ->
      P0 (Some t) now [] (vr now []) (st (mkTh v t None (th_done (ctr w)) (th_off (ctr w))) (clear (proj w)))) ->
    (if th_done (ctr w) then (true, through Cmp (set_ct (mkTh v t None (th_done (ctr w)) (th_off (ctr w))) (clear w)))
     else if th_off (ctr w) then (true, through Uns (set_ct (mkTh v t None (th_done (ctr w)) (th_off (ctr w))) (clear w)))
     else (true, set_ct (mkTh v t None (th_done (ctr w)) (th_off (ctr w))) (clear w))) = (done, w1) ->
    Forall (@rq_ok O X) (w_rs w1) /\
    P (Some t) now ((if done then [] else [(true, WContinuous (Nat.max lst t) (KO Datatypes.tt))]) ++ []) (vr now (w_rs w1)) w1).
  { intros v _ Hv Hx.
    assert (End : forall c, c = Cmp \/ c = Uns -> In (XUp c) (w_tr w) -> let w2 := through c (set_ct (mkTh v t None (th_done (ctr w)) (th_off (ctr w))) (clear w)) in
      Forall (@rq_ok O X) (w_rs w2) /\ P (Some t) now [] (vr now (w_rs w2)) w2).
    { intros c Hc Hi w2. destruct (@through_end c (Some t) now [] [] (set_ct (mkTh v t None (th_done (ctr w)) (th_off (ctr w))) (clear w))) as [G1 G2]; auto; [split; constructor|constructor|].
      assert (Z := gone_done G1 G2). cbn [app] in Z. exact Z. }
    destruct (th_done (ctr w)) eqn:Hdn; [injection Hx as <- <-; apply End; auto|].
    destruct (th_off (ctr w)) eqn:Hof; injection Hx as <- <-; [apply End; auto|].
    split; [constructor|]. split; [apply Hv; auto|]. split; auto. }
  destruct (dl <? t) eqn:Hlt2.
  { apply (Close (th_value (ctr w))); auto. intros H1 H2. rewrite H1, H2 in Old. destruct (Old _ _ eq_refl) as [_ F2]. rewrite H1, H2. exact F2. }
  assert (Htd : trailing = true \/ trailing = false) by (destruct trailing; auto).
  set (th := TimeReMoreModel.through op answer tell) in *.
  set (P0' := TimeThrottle.P d leading trailing down false late) in *.
  destruct Htd as [Htd|Htd]; rewrite Htd in Hr, Old.
  2: { apply (Close None); auto. intros H1 H2. rewrite H1, H2 in Old. destruct (Old _ _ eq_refl) as [_ F2]. rewrite H1, H2. exact F2. }
  destruct (th_value (ctr w)) as [a|] eqn:Hv.
  2: { apply (Close None); auto. intros H1 H2. rewrite H1, H2 in Old. destruct (Old _ _ eq_refl) as [_ F2]. rewrite H1, H2. exact F2. }
  clear Close. subst th P0'.
  set (s1 := mkTh None t (Some dl) (th_done (ctr w)) (th_off (ctr w))) in *.
  set (w2 := set_ct s1 (clear w)) in *.
  assert (Hs2 : w_shut w2 = false) by exact Hs.
  assert (Hd2 : dfr w2 = clear_df).
  { apply (quiet_open Q Hs). }
  assert (Hth := through_open a (Qs s1) Hs2). fold w2 in Hth.
  assert (Pt := tell_proj (Nxt a) w2). assert (Dt := tell_dfr (Nxt a) w2).
  assert (Ct : ctr (tell (Nxt a) w2) = s1).
  { destruct (@tell_open A A E (loop_st S A E) O X true down (Nxt a) w2 Hs2) as (rs & -> & _). reflexivity. }
  assert (Tt := @tell_tr _ (Nxt a) w2). rewrite Hs2 in Tt. change (w_tr w2) with (w_tr w) in Tt.
  assert (Pa2 : passed (w_tr (tell (Nxt a) w2))) by (rewrite Tt; apply passed_snoc; auto; discriminate).
  change (st s1 (clear (proj w))) with (proj w2) in Old. rewrite <- Pt in Old.
  change (w_shut (proj (tell (Nxt a) w2))) with (w_shut (tell (Nxt a) w2)) in Old.
  (* the destination is closed, by itself or by what it called *)
  assert (Gone : forall l w3, gone (Some t) now l [] w3 -> quiet w3 ->
    Forall (@rq_ok O X) (w_rs w3) /\ P (Some t) now [] (vr now (w_rs w3)) w3).
  { intros l w3 G Q3. apply (@gone_done (Some t) now [] []); auto. destruct G as (G1 & G2 & [G3 G3'] & G4). split; [auto|]. split; [auto|]. split; [split; [constructor|auto]|auto]. }
  destruct (w_shut (tell (Nxt a) w2)) eqn:Hs3.
  { destruct (Old _ _ eq_refl) as [F1 (O1 & O2 & O3 & O4)].
    assert (G : gone (Some t) now [] [] (tell (Nxt a) w2)).
    { split; [auto|]. cbn [proj w_tr w_shut w_rs] in O1, O2, O3. rewrite Hs3 in O1. split; [auto|]. split; [auto|]. split; [auto|]. split; auto. }
    destruct (settle_gone (fold_gone (answer (outs (w_tr (tell (Nxt a) w2)))) G)) as [G1 G2]. rewrite <- Hth in G1, G2.
    rewrite (quiet_closed G2) in Hr. rewrite (proj1 G1) in Hr. injection Hr as <- <-. apply (Gone [] _ G1 G2). }
  assert (Dn : th_done (ctr w) || th_off (ctr w) = false \/ th_done (ctr w) || th_off (ctr w) = true) by (destruct (_ || _); auto).
  destruct Dn as [Dn|Dn].
  - apply orb_false_iff in Dn. destruct Dn as [D1 D2]. rewrite D1, D2 in Old, Hr. destruct (Old _ _ eq_refl) as [F1 F2].
    cbn [negb] in F2.
    assert (M : mid (Some t) now [(true, WContinuous (Nat.max lst t) (KO Datatypes.tt))] [] (tell (Nxt a) w2)).
    { right; right. split; [auto|]. split; [exact F2|]. split; [exact F1|]. split; [auto|]. split; [rewrite Dt; auto|]. rewrite Ct. discriminate. }
    apply (fold_mid (answer (outs (w_tr (tell (Nxt a) w2))))) in M. apply settle_mid in M. rewrite <- Hth in M.
    destruct M as [[G1 G2]|[(G1 & G2 & G3 & G4 & G5 & G6) _]].
    + rewrite (quiet_closed G2), (proj1 G1) in Hr. injection Hr as <- <-. apply (Gone _ _ G1 G2).
    + assert (Qw : quiet (through (Nxt a) w2)) by (split; [rewrite G5; auto|unfold flagged; rewrite G5; discriminate]).
      rewrite (quiet_closed Qw), G1 in Hr. injection Hr as <- <-. cbn [app] in G2. cbn [negb app]. split; [exact G3|]. unfold P. split; [exact G2|]. split; [exact Qw|exact G4].
  - destruct L2 as (Ov & _); [apply orb_true_iff; auto|].
    assert (Hg : good (w_tr w) (XOut (Nxt a))).
    { split; [apply (core_isopen HC); auto|]. right. split; [auto|]. split; [apply (c_tick HC)|]. rewrite <- L7. rewrite in_app_iff. simpl. auto. }
    assert (En : forall c, In (XUp c) (w_tr w) -> ending c (Some t) now [] [] (tell (Nxt a) w2)).
    { intros c Hi. destruct (@tell_open A A E (loop_st S A E) O X true down (Nxt a) w2 Hs2) as (rs & Te & R1 & R2).
      assert (Hcl : closes down (Nxt a) (w_tr w) = false) by (rewrite Te in Hs3; exact Hs3).
      change (w_tr w2) with (w_tr w) in R2. rewrite Hcl in R2. cbn [andb] in R2.
      assert (Rs : w_rs (tell (Nxt a) w2) = rs) by (rewrite Te; reflexivity).
      assert (Ro : w_over (tell (Nxt a) w2) = true) by (rewrite Te; exact Ov).
      unfold ending. rewrite Rs, Ro, Ct, Hs3, Tt. assert (C1 := core_out _ HC Hg (or_intror eq_refl)). rewrite Hcl in C1.
      split; [auto|]. split; [exact C1|]. split; [rewrite R2; split; constructor|].
      split; [|split; [exact R1|split; [rewrite <- Tt; auto|split; [apply in_or_app; auto|split; [auto|split; [exact Dn|]]]]]].
      - exists rest. snocs. cbn [olist] in L7. rewrite <- app_assoc. auto.
      - split; [rewrite Dt, Hd2; auto|unfold flagged; rewrite Dt, Hd2; discriminate]. }
    assert (End : forall c, c = Cmp \/ c = Uns -> In (XUp c) (w_tr w) -> is_closed (through (Nxt a) w2) = false /\
      gone (Some t) now [] [] (through c (through (Nxt a) w2)) /\ quiet (through c (through (Nxt a) w2))).
    { intros c Hc Hi. rewrite Hth. assert (Z := fold_ending (answer (outs (w_tr (tell (Nxt a) w2)))) (En c Hi)). destruct Z as (Z1 & Z2 & Z3 & Z4 & Z5 & Z6 & Z7 & Z8 & Z9 & Z10).
      rewrite (settle_none op answer true down) by apply Z10. split; [rewrite (quiet_closed Z10); auto|]. apply through_end; auto. }
    destruct (th_done (ctr w)) eqn:D1.
    + destruct (End Cmp) as (H1 & H2 & H3); auto. rewrite H1 in Hr. injection Hr as <- <-. apply (Gone _ _ H2 H3).
    + cbn [orb] in Dn. destruct (End Uns) as (H1 & H2 & H3); auto. rewrite H1, Dn in Hr. injection Hr as <- <-. apply (Gone _ _ H2 H3).
Qed.

Lemma Hbegin now l q (w : W) u : P None now l q w -> Forall (fun x => fst x = true) l ->
  P (Some u) (Nat.max now u) (map (fun x => (false, snd x)) l) q (note (XTick u) w).
Proof.
  intros (HP & Q & Hpa) F. split; [exact (@TimeThrottle.Hbegin _ _ _ d leading trailing down false late now l q (proj w) u HP F)|].
  split; [apply (quiet_same _ Q); auto|]. apply passed_snoc; auto. discriminate.
Qed.
Lemma Hend t now l (w : W) : P (Some t) now l [] w -> Forall (fun x => fst x = true) l -> P None now l [] (note XEnd w).
Proof.
  intros (HP & Q & Hpa) F. split; [exact (@TimeThrottle.Hend _ _ _ d leading trailing down false late t now l (proj w) HP F)|].
  split; [apply (quiet_same _ Q); auto|]. apply passed_snoc; auto. discriminate.
Qed.
Lemma HS ph now l wk q (w : W) : P ph now l (QS wk :: q) w -> owned wk = true -> P ph now (l ++ [(false, wk)]) q w.
Proof. intros (HP & Q) Ho. split; [|auto]. apply (@TimeThrottle.HS _ _ _ d leading trailing down false late); auto. Qed.
Lemma HC ph now l q (w : W) : P ph now l (QC _ _ :: q) w -> P ph now [] q w.
Proof. intros (HP & Q). split; [|auto]. eapply (@TimeThrottle.HC _ _ _ d leading trailing down false late); eauto. Qed.
Lemma Hinit : P None 0 [] [] (mkW (t_new T) false false false false [] []).
Proof.
  split; [exact (@TimeThrottle.Hinit A E X d leading trailing down false late)|]. split; [split; cbn; auto; discriminate|apply passed_nil].
Qed.

Theorem throttle_loop_ok fuel depth h m : syss T down user fuel (start T depth) h = Fine m ->
  let tr := w_tr (m_world m) in
  always (throttled_loop down d leading trailing) tr /\ answered down (@first_answer A E leading) tr /\ errors_pass down tr /\
  exists rest, Permutation (values tr ++ rest) (map snd (pushes tr)).
Proof.
  intros H.
  destruct (@lift_any _ _ _ _ _ _ T down user P Hclear Hcmd Hrun Hbegin Hend HS HC Hinit _ _ _ _ H) as (l & q & HP & F).
  destruct HP as ((HC & Sh & HPm & HL) & Q & Hpa). cbv zeta. split; [|split; [|split; auto]].
  - intros p e s Hp. assert (Z : good p e) by (eapply (c_good HC); exact Hp). destruct e as [| | |c|]; auto; destruct c; auto.
  - exact (c_ans HC).
Qed.
Local Transparent vr TimeReModel.settle TimeReMoreModel.through.

(** *** No panic, if no other task calls the source. *)
Definition onlyc (q : list (qop O X)) : Prop := Forall (fun x => match x with QS _ => False | QC _ _ => True end) q.
Definition base now (w : W) : Prop :=
  w_panic w = false /\ Forall (@rq_ok O X) (w_rs w) /\ onlyc (vr now (w_rs w)) /\ (th_deadline (ctr w) = None -> w_over w = true).
Definition ex now (w : W) : Prop := base now w /\
  (w_shut w = true \/ dfr w = clear_df /\ th_deadline (ctr w) <> None \/
   exists c u cm er, dfr w = mkDf [c] false u cm er /\ (forall a, c <> Nxt a) /\ flagged w = true /\ w_over w = true).

Lemma base_same now (w w' : W) rs : base now w -> w_panic w' = w_panic w -> w_rs w' = w_rs w ++ rs -> rs = [] \/ rs = [QCancel 0] ->
  (th_deadline (ctr w') = None -> th_deadline (ctr w) = None \/ w_over w' = true) -> (w_over w = true -> w_over w' = true) -> base now w'.
Proof.
  intros (B1 & B2 & B3 & B4) E1 E2 E3 E4 E5. unfold base. rewrite E1, E2. split; [auto|]. split; [|split].
  - apply Forall_app; split; auto. destruct E3; subst; repeat constructor.
  - unfold onlyc. rewrite vr_app. apply Forall_app; split; auto. destruct E3; subst; repeat constructor.
  - intros H. destruct (E4 H); auto.
Qed.
Lemma hold_flag c (w : W) : (forall a, c <> Nxt a) -> dfr w = clear_df ->
  exists u cm er, dfr (hold c w) = mkDf [c] false u cm er /\ flagged (hold c w) = true.
Proof.
  intros Hc Hd. destruct w as [[ct df] ? ? ? ? ? ?]. unfold dfr in Hd. cbn in Hd. subst df.
  destruct c; [edestruct Hc; eauto| | |]; do 3 eexists; (split; reflexivity).
Qed.
Lemma nested_ex now (w : W) c : ex now w -> ex now (nested op w c) /\ (w_shut w = true -> w_shut (nested op w c) = true).
Proof.
  intros HE. assert (HE' := HE). destruct HE' as (HB & HD). unfold nested. destruct (w_born w); [|auto]. cbn [negb].
  (* what tells nothing *)
  assert (Keep : forall (w' : W), w_panic w' = w_panic w -> w_rs w' = w_rs w -> w_shut w' = w_shut w -> dfr w' = dfr w ->
    (th_deadline (ctr w') = None -> th_deadline (ctr w) = None) -> (w_over w = true -> w_over w' = true) -> ex now w' /\ (w_shut w = true -> w_shut w' = true)).
  { intros w' E1 E2 E3 E4 E5 E6. split; [|rewrite E3; auto]. split; [apply (@base_same now w w' [] HB); auto; rewrite E2, app_nil_r; auto|].
    rewrite E3. unfold flagged in *. rewrite E4. destruct HD as [D|[[D1 D2]|(c0 & u & cm & er & D1 & D2 & D3 & D4)]]; [auto|right; left; split; auto|].
    right. right. exists c0, u, cm, er. auto. }
  (* what tells the end *)
  assert (Tell : forall c0 s, (forall a, c0 <> Nxt a) -> w_shut w = true \/ dfr w = clear_df ->
    let w' := hold c0 (ask (QCancel 0) (set_ct s (set_over (note (XUp c0) w)))) in ex now w' /\ (w_shut w = true -> w_shut w' = true)).
  { intros c0 s Hc Hw w'. assert (Hh : exists s', w' = set_df s' (ask (QCancel 0) (set_ct s (set_over (note (XUp c0) w))))) by apply hold_eq.
    split; [split|].
    - destruct Hh as (s' & ->). apply (@base_same now w _ [QCancel 0] HB); auto.
    - destruct Hw as [Hw|Hw]; [left; destruct Hh as (s' & ->); auto|]. right. right.
      destruct (@hold_flag c0 (ask (QCancel 0) (set_ct s (set_over (note (XUp c0) w))))) as (u & cm & er & H1 & H2); auto.
      exists c0, u, cm, er. fold w' in H1, H2. split; [auto|]. split; [auto|]. split; [auto|]. destruct Hh as (s' & ->). auto.
    - destruct Hh as (s' & ->). auto. }
  assert (Dw : w_over w = false -> w_shut w = true \/ dfr w = clear_df).
  { intros H. destruct HD as [D|[[D1 D2]|(c0 & u & cm & er & D1 & D2 & D3 & D4)]]; auto. congruence. }
  destruct c as [a|x| |]; try (destruct (w_over w) eqn:Hov; [split; auto; fail|]); cbn [throttle_op].
  - change (ctr (note (XUp (Nxt a)) w)) with (ctr w). destruct (th_deadline (ctr w)) as [dl|] eqn:Hdl.
    2: { destruct HB as (_ & _ & _ & HB). first [discriminate (HB eq_refl)|discriminate (HB Hdl)|rewrite (HB Hdl) in Hov; discriminate]. }
    destruct (th_last (ctr w) <? dl); [destruct (bool_dec trailing true) as [Ht|Ht]; [|apply not_true_is_false in Ht]|].
    + match goal with |- context [if trailing then ?y else ?z] => replace (if trailing then y else z) with y by (rewrite Ht; reflexivity) end.
      apply Keep; auto; discriminate.
    + match goal with |- context [if trailing then ?y else ?z] => replace (if trailing then y else z) with z by (rewrite Ht; reflexivity) end.
      apply Keep; auto; try discriminate. intros HH. change (th_deadline (ctr w) = None) in HH. congruence.
    + apply Keep; auto; discriminate.
  - apply Tell; [discriminate|auto].
  - change (ctr (set_over (note (XUp Cmp) w))) with (ctr w). destruct (th_idle trailing (ctr w)); [apply Tell; [discriminate|auto]|].
    apply Keep; auto.
  - change (ctr (set_over (note (XUp Uns) w))) with (ctr w). change (flagged (set_over (note (XUp Uns) w))) with (flagged w).
    destruct (flagged w || th_done (ctr w) || th_off (ctr w)) eqn:Hx; [apply Keep; auto|].
    destruct (th_idle trailing (ctr w)); [|apply Keep; auto]. apply Tell; [discriminate|].
    destruct HD as [D|[[D1 D2]|(c0 & u & cm & er & D1 & D2 & D3 & D4)]]; auto. rewrite D3 in Hx. discriminate.
Qed.
Lemma fold_ex now cs : forall w : W, ex now w -> ex now (fold_left (nested op) cs w) /\ (w_shut w = true -> w_shut (fold_left (nested op) cs w) = true).
Proof.
  induction cs as [|c cs IH]; intros w H; simpl; auto. destruct (nested_ex c H) as [H1 H2]. destruct (IH _ H1) as [H3 H4]. auto.
Qed.
Lemma tell_base now c (w : W) : base now w -> base now (tell c w).
Proof.
  intros HB. destruct (w_shut w) eqn:Hs; [rewrite tell_shut; auto|].
  destruct (@tell_open A A E (loop_st S A E) O X true down c w Hs) as (rs & -> & R1 & R2). destruct HB as (B1 & B2 & B3 & B4).
  split; [auto|]. split; [apply Forall_app; auto|]. split; [|auto]. unfold onlyc. cbn [w_rs]. rewrite vr_app, R2. apply Forall_app; split; auto.
  destruct (_ && _); repeat constructor.
Qed.
Lemma hit_ex now c (w : W) : base now w -> (forall a, c <> Nxt a) -> ex now (hit c w) /\ w_shut (hit c w) = true.
Proof.
  intros HB Hc. assert (H1 : ex now (tell c w)) by (split; [apply tell_base; auto|left; apply tell_closes; auto]).
  assert (H2 := @tell_closes c w Hc). unfold TimeReModel.hit. destruct (w_shut w); [auto|].
  destruct (fold_ex (answer (outs (w_tr (tell c w)))) H1) as [H3 H4]. cbv zeta. auto.
Qed.
Lemma settle_ex now (w : W) : ex now w ->
  base now (settle w) /\ quiet (settle w) /\ (th_deadline (ctr (settle w)) = None -> is_closed (settle w) = true).
Proof.
  intros (HB & HD). destruct HD as [D|[[D1 D2]|(c0 & u & cm & er & D1 & D2 & D3 & D4)]].
  - destruct (settle_shut op answer true down w D) as (s & -> & Hq). split; [auto|]. split; [split; auto|]. intros _. unfold is_closed. cbn [set_df st w_shut]. rewrite D, orb_true_r. auto.
  - rewrite (settle_none op answer true down w) by (rewrite D1; auto). split; [auto|].
    split; [split; [rewrite D1; auto|unfold flagged; rewrite D1; discriminate]|]. intros. congruence.
  - destruct (@hit_ex now c0 (set_df (mkDf [] false u cm er) w)) as [[H1 _] H2]; auto.
    assert (Eq : exists s, apply_one op answer tell (set_df (mkDf [] false u cm er) w) c0 = set_df s (hit c0 (set_df (mkDf [] false u cm er) w))).
    { unfold apply_one. change (df_closed (dfr (set_df (mkDf [] false u cm er) w))) with false.
      destruct c0; [edestruct D2; eauto| | |]; eexists; reflexivity. }
    destruct Eq as (s & Eq). destruct (settle_end op answer true down w D1) as (s' & Es & Hq); [rewrite Eq; exact H2|].
    rewrite Es, Eq, set_df_twice. split; [exact H1|]. split; [split; auto|]. intros _. unfold is_closed. change (w_shut (set_df s' ?y)) with (w_shut y). rewrite H2, orb_true_r. auto.
Qed.
(** A call of the task. *)
Lemma through_value now a (w : W) : quiet w -> base now w -> th_deadline (ctr w) <> None ->
  base now (through (Nxt a) w) /\ quiet (through (Nxt a) w) /\ (th_deadline (ctr (through (Nxt a) w)) = None -> is_closed (through (Nxt a) w) = true).
Proof.
  intros Q HB Hd. assert (Q' := Q). destruct Q' as [H1 H3].
  unfold TimeReMoreModel.through. rewrite (settle_none op answer true down w H1), (quiet_closed Q). apply settle_ex.
  destruct (w_shut w) eqn:Hs; [split; auto|]. unfold TimeReModel.hit. rewrite Hs. apply fold_ex.
  split; [apply tell_base; auto|]. right. left. rewrite tell_dfr. split.
  - apply (quiet_open Q Hs).
  - destruct (@tell_open A A E (loop_st S A E) O X true down (Nxt a) w Hs) as (rs & -> & _). auto.
Qed.
Lemma through_over now c (w : W) : quiet w -> base now w -> (forall a, c <> Nxt a) -> base now (through c w).
Proof.
  intros Q HB Hc. assert (Q' := Q). destruct Q' as [H1 H3]. destruct (w_shut w) eqn:Hs.
  { destruct (through_shut c Q Hs) as (s & -> & _). exact HB. }
  unfold TimeReMoreModel.through. rewrite (settle_none op answer true down w H1), (quiet_closed Q), Hs.
  assert (Hu : df_uns (dfr w) = false).
  { destruct (df_uns (dfr w)) eqn:Hu; auto. discriminate H3. unfold flagged. rewrite Hu, !orb_true_r. auto. }
  rewrite Hu. destruct c; [edestruct Hc; eauto| | |]; apply settle_ex, hit_ex; auto.
Qed.

Local Opaque vr TimeReModel.settle TimeReMoreModel.through.
Section Calm.
Hypothesis Hal : aloof user.
Definition Q0 ph now l q (w : W) : Prop := P (given ph) now l q w /\ TimeThrottle.Q ph now l q (proj w).

Lemma calm_run fuel t now l1 wk l2 q (w : W) wk' r w' rs :
  Q0 (Running t) now (l1 ++ (false, wk) :: l2) q w -> Forall (fun x => fst x = true) l1 -> owned wk = true ->
  wtick (run T down user) fuel wk t w = Some (wk', r, w', rs) ->
  Forall (@rq_ok O X) rs /\
  Q0 (Running t) now (l1 ++ (if r then [] else [(true, wk')]) ++ l2) (q ++ vr now rs) w'.
Proof.
  intros (HP & Q1 & Q2 & Q3 & Q4 & Q5) Hl1 Hown Hw.
  destruct (@Hrun fuel t now l1 wk l2 q w wk' r w' rs HP Hl1 Hown Hw) as [F HP']. split; [auto|]. split; [exact HP'|].
  destruct (shaped_run _ _ _ Q2) as [(lst & ->) Sh'].
  assert (E1 : l1 = [] /\ l2 = []).
  { rewrite app_length in Q3. cbn [length] in Q3. destruct l1; destruct l2; auto; cbn [length] in Q3; lia. }
  destruct E1 as [-> ->]. cbn [app] in *.
  destruct HP as ((HC & _ & _ & HL) & Q & _). change (w_st (proj w)) with (ctr w) in *.
  change (w_shut (proj w)) with (w_shut w) in *. change (w_over (proj w)) with (w_over w) in *. change (w_panic (proj w)) with (w_panic w) in *.
  revert Hw. cbn [wtick run throttle_loop t_run t_torn].
  destruct (throttle_task answer d leading trailing tell t (clear w)) as [done w1] eqn:Hr.
  intros Y; injection Y as <- <- <- <-.
  destruct HP' as ((_ & Sh & _) & _ & _).
  assert (Fin : base now w1 -> done = true \/ th_deadline (ctr w1) <> None ->
    TimeThrottle.Q (Running t) now ((if done then [] else [(true, WContinuous (Nat.max lst t) (KO Datatypes.tt))]) ++ []) (q ++ vr now (w_rs w1)) (proj w1)).
  { intros (B1 & B2 & B3 & B4) Hdn. split; [auto|]. split; [exact Sh|]. split; [destruct done; cbn; lia|]. split; [apply Forall_app; auto|].
    intros Hd0. destruct Hdn as [->|Hdn]; [auto|destruct Hdn; exact Hd0]. }
  unfold throttle_task in Hr. change (ctr (clear w)) with (ctr w) in Hr.
  destruct (th_deadline (ctr w)) as [dl|] eqn:Hdl; [|discriminate (Q5 eq_refl)].
  assert (Qs : forall s, quiet (set_ct s (clear w))) by (intros; apply (quiet_same _ Q); auto).
  assert (B0 : forall s, (th_deadline s = None -> w_over w = true) -> base now (set_ct s (clear w))).
  { intros s Hx. split; [auto|]. split; [constructor|]. split; [constructor|auto]. }
  assert (Ov : w_shut w = false -> th_done (ctr w) = true \/ th_off (ctr w) = true -> w_over w = true).
  { intros Hs Hx. destruct (HL Hs) as [_ L2 _ _ _ _ _ _]. destruct (L2 Hx). auto. }
  destruct (t <? dl). { injection Hr as <- <-. apply Fin; [apply B0; discriminate|]. right. discriminate. }
  (* no value *)
  assert (Close : forall v,
    (if th_done (ctr w) then (true, through Cmp (set_ct (mkTh v t None (th_done (ctr w)) (th_off (ctr w))) (clear w)))
     else if th_off (ctr w) then (true, through Uns (set_ct (mkTh v t None (th_done (ctr w)) (th_off (ctr w))) (clear w)))
     else (true, set_ct (mkTh v t None (th_done (ctr w)) (th_off (ctr w))) (clear w))) = (done, w1) ->
    w_panic w1 = false /\ done = true /\ onlyc (vr now (w_rs w1))).
  { intros v Hx.
    assert (End : forall c, (forall a, c <> Nxt a) -> th_done (ctr w) = true \/ th_off (ctr w) = true -> let w2 := through c (set_ct (mkTh v t None (th_done (ctr w)) (th_off (ctr w))) (clear w)) in
      w_panic w2 = false /\ true = true /\ onlyc (vr now (w_rs w2))).
    { intros c Hc Hd0 w2. destruct (w_shut w) eqn:Hs.
      - destruct (@through_shut c (set_ct (mkTh v t None (th_done (ctr w)) (th_off (ctr w))) (clear w)) (Qs _) Hs) as (s & E1 & _).
        unfold w2. rewrite E1. split; [auto|]. split; [auto|constructor].
      - destruct (@through_over now c (set_ct (mkTh v t None (th_done (ctr w)) (th_off (ctr w))) (clear w)) (Qs _)) as (B1 & B2 & B3 & B4); auto. }
    destruct (th_done (ctr w)) eqn:Hdn; [injection Hx as <- <-; apply End; [discriminate|auto]|].
    destruct (th_off (ctr w)) eqn:Hof; injection Hx as <- <-; [apply End; [discriminate|auto]|]. split; [auto|]. split; [auto|constructor]. }
  assert (Fin' : w_panic w1 = false /\ done = true /\ onlyc (vr now (w_rs w1)) ->
    TimeThrottle.Q (Running t) now ((if done then [] else [(true, WContinuous (Nat.max lst t) (KO Datatypes.tt))]) ++ []) (q ++ vr now (w_rs w1)) (proj w1)).
  { intros (B1 & B2 & B3). split; [auto|]. split; [exact Sh|]. split; [destruct done; cbn; lia|]. split; [apply Forall_app; auto|].
    intros _. rewrite B2. auto. }
  set (th := TimeReMoreModel.through op answer tell) in *.
  destruct (dl <? t). { apply Fin'. eapply Close; eauto. }
  assert (Htd : trailing = true \/ trailing = false) by (destruct trailing; auto).
  destruct Htd as [Htd|Htd]; rewrite Htd in Hr; [|apply Fin'; eapply Close; eauto].
  destruct (th_value (ctr w)) as [a|]; [|apply Fin'; eapply Close; eauto]. subst th.
  set (w2 := set_ct (mkTh None t (Some dl) (th_done (ctr w)) (th_off (ctr w))) (clear w)) in *.
  destruct (@through_value now a w2 (Qs _)) as (B1 & Qw & B2); [apply B0; discriminate|discriminate|].
  destruct (is_closed (through (Nxt a) w2)) eqn:Hcl. { injection Hr as <- <-. apply Fin; auto. }
  destruct (th_done (ctr w)) eqn:Hdn; [|destruct (th_off (ctr w)) eqn:Hof]; injection Hr as <- <-; apply Fin; auto.
  - apply through_over; auto. discriminate.
  - apply through_over; auto. discriminate.
  - right. intros Hd0. discriminate (B2 Hd0).
Qed.
Lemma calm_cmd ph now l q (w : W) c : is_up c -> ph = Between \/ calm c -> Forall (@rq_ok O X) (w_rs w) ->
  Q0 ph now l (q ++ vr now (w_rs w)) w ->
  Forall (@rq_ok O X) (w_rs (do_cmd T down w c)) /\
  Q0 ph now l (q ++ vr now (w_rs (do_cmd T down w c))) (do_cmd T down w c).
Proof.
  intros Hc Hp F (HP & HQ). destruct (@Hcmd (given ph) now l q w c Hc F HP) as [F1 HP1]. split; [auto|]. split; [auto|].
  assert (Qw : quiet w) by apply HP. destruct (@cmd_proj w c Qw Hc) as [E1 E2].
  destruct (@TimeThrottle.calm_cmd _ _ _ d leading trailing down ph now l q (proj w) c Hc Hp F HQ) as [_ F2].
  rewrite <- E1 in F2. exact F2.
Qed.
Lemma calm_begin now l q (w : W) u : Q0 Between now l q w -> Forall (fun x => fst x = true) l ->
  Q0 (Begun u) (Nat.max now u) (map (fun x => (false, snd x)) l) q (note (XTick u) w).
Proof. intros (HP & HQ) F. split; [apply Hbegin; auto|]. exact (TimeThrottle.calm_begin u HQ F). Qed.
Lemma calm_go t now l (w : W) : Q0 (Begun t) now l [] w -> Q0 (Running t) now l [] w.
Proof. intros (HP & HQ). split; [auto|]. apply TimeThrottle.calm_go; auto. Qed.
Lemma calm_end t now l (w : W) : Q0 (Running t) now l [] w -> Forall (fun x => fst x = true) l -> Q0 Between now l [] (note XEnd w).
Proof. intros (HP & HQ) F. split; [eapply Hend; eauto|]. exact (TimeThrottle.calm_end HQ F). Qed.
Lemma calm_HS ph now l wk q (w : W) : Q0 ph now l (QS wk :: q) w -> owned wk = true -> Q0 ph now (l ++ [(false, wk)]) q w.
Proof. intros (HP & HQ) F. split; [apply HS; auto|]. apply TimeThrottle.calm_HS; auto. Qed.
Lemma calm_HC ph now l q (w : W) : Q0 ph now l (QC _ _ :: q) w -> Q0 ph now [] q w.
Proof. intros (HP & HQ). split; [eapply HC; eauto|]. eapply TimeThrottle.calm_HC; eauto. Qed.
Lemma calm_init : Q0 Between 0 [] [] (mkW (t_new T) false false false false [] []).
Proof. split; [apply Hinit|]. exact (@TimeThrottle.calm_init A E X d leading trailing). Qed.
Lemma calm_clear ph now l q (w : W) : Q0 ph now l q w <-> Q0 ph now l q (clear w).
Proof. reflexivity. Qed.

Theorem throttle_loop_calm fuel depth h m : syss T down user fuel (start T depth) h = Fine m -> w_panic (m_world m) = false.
Proof.
  intros H.
  destruct (@lift _ _ _ _ _ _ T down user Q0 calm_clear (@calm A E X) (Hcalm Hal) calm_cmd calm_run calm_begin calm_go calm_end calm_HS calm_HC calm_init _ _ _ _ H) as (l & q & HP & F).
  apply HP.
Qed.
End Calm.
End Throttle.
