(** timer. *)
From Verif Require Import Base SubscrModel SchedModel SchedProofs SchedExec TimeModel TimeLift TimeSpec TimeProofs.
Set Implicit Arguments.

Section Timer.
Variables A E X : Type.
Variable d : nat.
Variable down : list (ncall unit E) -> bool * list (req X).
Variable user : X -> nat -> list (tev A unit E) -> X * bool * list (cmd A E X).
Notation O := unit.
Notation W := (world A unit E bool O X).
Notation K := (clo O X).
Notation T := (timer (A:=A) (E:=E) (X:=X) d).
Notation core := (core down (timed_once down d) (@timer_answers A unit E)).

Definition shape (w : work K) : Prop := exists on cur, w = WDelayed on cur d (Some (KO Datatypes.tt)).
Definition mine (ph : option nat) (now : nat) (tr : list (tev A unit E)) (b : bool) (w : work K) : Prop :=
  exists s cur, w = WDelayed s cur d (Some (KO Datatypes.tt)) /\ since tr = Some s /\
  match ph with Some t => Nat.max cur t = now | None => cur = now end /\ (b = true -> cur = now /\ now < s + d).

Record live ph now l q (w : W) : Prop := mkLive {
  lv_task : if w_born w then one (mine ph now (w_tr w)) l q else l = [] /\ q = [] /\ since (w_tr w) = None;
  lv_none : values (w_tr w) = []
}.
Definition P ph now l q (w : W) : Prop :=
  core ph now (w_tr w) (w_shut w) /\ shaped shape l q /\ (w_shut w = false -> live ph now l q w).

Lemma Hclear ph now l q (w : W) : P ph now l q w <-> P ph now l q (clear w).
Proof. unfold P. split; intros (H1 & H2 & H3); (split; [auto|split; [auto|]]); intros Hs; destruct (H3 Hs); split; auto. Qed.

Lemma vr_del now : vr now [QSched 0 (KDelayed d) (KO Datatypes.tt)] = [QS (O:=O) (X:=X) (WDelayed now now d (Some (KO Datatypes.tt)))].
Proof. unfold vr. cbn [flat_map new_work hook app]. rewrite ?later_max. reflexivity. Qed.
Lemma mine_same ph now tr e b w : match e with XEnd | XUp _ => True | _ => False end -> mine ph now tr b w -> mine ph now (tr ++ [e]) b w.
Proof. unfold mine. intros He (s & cur & H1 & H2 & H3). exists s, cur. destruct e; try destruct He; snocs; auto. Qed.

Lemma live_same ph now l q w w' e : w_born w = true -> match e with XUp _ => True | _ => False end -> live ph now l q w ->
  w_born w' = true -> w_tr w' = w_tr w ++ [e] -> live ph now l q w'.
Proof.
  intros Hb He [L1 L2] Hb' Et. rewrite Hb in *. destruct e; try destruct He. split; rewrite Et; snocs; auto. rewrite Hb'.
  refine (one_imp _ _ L1). intros. apply mine_same; simpl; auto.
Qed.

Lemma Hcmd ph now l q (w : W) c : is_up c -> Forall (@rq_ok O X) (w_rs w) ->
  P ph now l (q ++ vr now (w_rs w)) w ->
  Forall (@rq_ok O X) (w_rs (do_cmd T down w c)) /\
  P ph now l (q ++ vr now (w_rs (do_cmd T down w c))) (do_cmd T down w c).
Proof.
  intros Hc F HP. pose proof HP as (HC & HSh & HL). destruct c as [|c|r]; [| |destruct Hc].
  - cbn [do_cmd]. destruct (w_born w) eqn:Hb; [split; [auto|split; auto]|].
    unfold P. cbn [timer t_sub]. wcbn. split. { rqs. }
    rewrite vr_app, app_assoc, vr_del. split; [|split].
    + apply core_note; simpl; auto.
    + apply shaped_more; auto. repeat constructor. exists now, now. auto.
    + intros Hs. destruct (HL Hs) as [L1 L2]. rewrite Hb in *. destruct L1 as (-> & L3 & L4).
      split; wcbn; snocs; auto.
      rewrite L3. constructor. exists now, now. snocs. split; auto. rewrite L4, (c_clock HC). split; auto. split; [|discriminate].
      destruct ph; auto. rewrite <- (c_clock HC). assert (H := c_t HC). cbn in H. lia.
  - cbn [do_cmd]. unfold up. destruct (w_born w) eqn:Hb; [|split; [auto|split; auto]]. cbn [negb].
    destruct c as [a|x| |]; try (destruct (w_over w) eqn:Hov; [split; [exact F|exact HP]; fail|]); cbn [timer t_up t_torn]; wcbn.
    1, 2, 3: split; auto; unfold P; wcbn; (split; [apply core_note; simpl; auto|split; [auto|]]);
      intros Hs; eapply (@live_same ph now _ _ w); simpl; auto; simpl; auto.
    match goal with |- context [if w_shut w then ?a else _] => set (w1 := a) end.
    assert (R1 : exists rs, w_rs w1 = w_rs w ++ rs /\ (rs = [] \/ rs = [QCancel 0])).
    { unfold w1. destruct (w_st w); wcbn; eauto. exists []. rewrite app_nil_r. auto. }
    assert (Et : w_tr w1 = w_tr w ++ [XUp Uns]) by (unfold w1; destruct (w_st w); auto).
    assert (Es : w_shut w1 = w_shut w) by (unfold w1; destruct (w_st w); auto).
    clearbody w1. destruct R1 as (rs1 & R1 & R1').
    assert (F1 : Forall (@rq_ok O X) rs1) by (destruct R1'; subst; rqs).
    assert (V1 : Forall (fun x : qop O X => match x with QS w0 => shape w0 | QC _ _ => True end) (vr now rs1))
      by (destruct R1'; subst; repeat constructor).
    destruct (w_shut w) eqn:Hs.
    + unfold P. rewrite R1, vr_app, app_assoc, Et, Es. split. { rqs. }
      split; [|split; [apply shaped_more; auto|discriminate]]. apply core_note; simpl; auto.
    + destruct (@tell_open A unit E bool O X false down Uns w1) as (rs & -> & R2 & R3); [auto|].
      unfold P. wcbn. rewrite Et, R1 in *. split. { rqs. }
      rewrite !vr_app, R3. cbn [closes andb]. rewrite app_nil_r, app_assoc. split; [|split; [|discriminate]].
      * apply (@core_ans A unit E X down _ (@timer_answers A unit E)); simpl; auto. split; [|unfold last_is; eauto].
        rewrite open_same by discriminate. apply (core_isopen HC); auto.
      * apply shaped_more; auto.
Qed.

Lemma Hrun fuel t now l1 wk l2 q (w : W) wk' r w' rs :
  P (Some t) now (l1 ++ (false, wk) :: l2) q w -> Forall (fun x => fst x = true) l1 -> owned wk = true ->
  wtick (run T down user) fuel wk t w = Some (wk', r, w', rs) ->
  Forall (@rq_ok O X) rs /\
  P (Some t) now (l1 ++ (if r then [] else [(true, wk')]) ++ l2) (q ++ vr now rs) w'.
Proof.
  intros (HC & Sh & HL) _ _. destruct (shaped_run _ _ _ Sh) as [(on & cur & ->) Sh'].
  cbn [wtick]. destruct (on + d <=? Nat.max cur t) eqn:Hd.
  2: { intros Y; injection Y as <- <- <- <-. split; auto. cbn [vr flat_map]. rewrite app_nil_r.
    split; [auto|]. split; [apply (Sh' false); unfold shape; eauto|]. intros Hs. destruct (HL Hs) as [L1 L2]. split; auto.
    destruct (w_born w); [|destruct L1 as [L1 _]; destruct l1; discriminate].
    apply one_run in L1. destruct L1 as (-> & -> & -> & s & cur' & E1 & E2 & E3 & E4). injection E1 as <- <-.
    constructor. exists on, (Nat.max cur t). apply Nat.leb_gt in Hd. split; auto. split; auto. split; [lia|intros _; lia]. }
  cbn [run timer t_run t_torn]. intros Y; injection Y as <- <- <- <-. wcbn.
  specialize (Sh' true (WDelayed on cur d (Some (KO Datatypes.tt)))). cbn [app] in Sh'.
  destruct (w_shut w) eqn:Hs.
  { rewrite tell_shut by (wcbn; auto). wcbn. rewrite Hs. wcbn. split; auto. cbn [vr flat_map]. rewrite app_nil_r. unfold P. wcbn. rewrite Hs.
    split; [auto|]. split; [apply Sh'; unfold shape; eauto|discriminate]. }
  destruct (HL eq_refl) as [L1 L2].
  destruct (w_born w) eqn:Hb; [|destruct L1 as [L1 _]; destruct l1; discriminate].
  apply one_run in L1. destruct L1 as (-> & -> & -> & s & cur' & E1 & E2 & E3 & E4). injection E1 as <- <-.
  assert (Hg : timed_once down d (w_tr w) (XOut (Nxt Datatypes.tt))).
  { split; [apply (core_isopen HC); auto|]. split; [apply (c_tick HC)|]. split; [auto|]. exists on. split; auto.
    apply Nat.leb_le in Hd. rewrite <- (c_clock HC), <- E3. auto. }
  cbn [app] in *.
  destruct (@tell_open A unit E bool O X false down (Nxt Datatypes.tt) (clear w)) as (rs & -> & R1 & R2); [exact Hs|].
  wcbn. revert R2. wcbn. cbn [app].
  destruct (closes down (Nxt Datatypes.tt) (w_tr w)) eqn:Hcl.
  - intros R2. unfold P. wcbn. split; auto. rewrite R2. cbn [andb]. split; [|split; [|discriminate]].
    + rewrite <- Hcl. apply core_out; auto.
    + apply Sh'. unfold shape; eauto.
  - intros R2. match goal with |- context [tell false down Cmp ?w1] => destruct (@tell_open A unit E bool O X false down Cmp w1) as (rs2 & -> & R3 & R4); [auto|] end.
    unfold P. wcbn. split. { rqs. } rewrite vr_app, R2, R4. cbn [closes andb app]. split; [|split; [|discriminate]].
    + apply (@core_ans2 A unit E X down _ (@timer_answers A unit E)); simpl; auto.
      split; [|unfold last_is; eauto]. apply open_out. split; [apply (core_isopen HC); auto|]. split; eauto.
    + apply Sh'. unfold shape; eauto.
Qed.

Lemma Hbegin now l q (w : W) u : P None now l q w -> Forall (fun x => fst x = true) l ->
  P (Some u) (Nat.max now u) (map (fun x => (false, snd x)) l) q (note (XTick u) w).
Proof.
  intros (HC & Sh & HL) F. unfold P. wcbn. split; [|split].
  - apply core_begin; simpl; auto.
  - apply shaped_begin; auto.
  - intros Hs. destruct (HL Hs) as [L1 L2]. split; wcbn; snocs; auto.
    destruct (w_born w).
    + refine (one_begin _ _ L1). intros b wk (s & cur & E1 & E2 & E3 & E4). exists s, cur. snocs. subst cur. split; auto.
      split; auto. split; [auto|discriminate].
    + destruct L1 as (-> & -> & L3). auto.
Qed.

Lemma Hend t now l (w : W) : P (Some t) now l [] w -> Forall (fun x => fst x = true) l -> P None now l [] (note XEnd w).
Proof.
  intros (HC & Sh & HL) F. unfold P. wcbn. split; [|split; auto].
  - apply (@core_end _ _ _ _ _ _ _ t); auto. simpl. intros Ho. apply (c_open HC) in Ho.
    destruct (HL Ho) as [L1 L2]. intros s Hsi. rewrite <- (c_clock HC). destruct (w_born w); [|destruct L1 as (_ & _ & L1); congruence].
    apply one_end in L1; auto. destruct L1 as (wk & s' & cur & E1 & E2 & E3 & E4). replace s with s' by congruence. apply E4; auto.
  - intros Hs. destruct (HL Hs) as [L1 L2]. split; wcbn; snocs; auto.
    destruct (w_born w); [|auto]. inversion L1 as [b wk H E1 E2|]; subst. apply Forall_inv in F. cbn in F. subst b. constructor.
    destruct H as (s & cur & M1 & M2 & M3 & E4). exists s, cur. snocs. split; auto. split; auto. split; auto.
    apply E4; auto.
Qed.

Lemma HS ph now l wk q (w : W) : P ph now l (QS wk :: q) w -> owned wk = true -> P ph now (l ++ [(false, wk)]) q w.
Proof.
  intros (HC & Sh & HL) _. split; [auto|split; [apply shaped_HS; auto|]].
  intros Hs. destruct (HL Hs) as [L1 L2]. split; auto.
  destruct (w_born w); [apply one_HS; auto|]. destruct L1 as (_ & L1 & _). discriminate.
Qed.
Lemma HC ph now l q (w : W) : P ph now l (QC _ _ :: q) w -> P ph now [] q w.
Proof.
  intros (HC & Sh & HL). split; [auto|split; [eapply shaped_HC; eauto|]].
  intros Hs. destruct (HL Hs) as [L1 L2]. exfalso.
  destruct (w_born w); [eapply one_HC; eauto|]. destruct L1 as (_ & L1 & _). discriminate.
Qed.
Lemma Hinit : P None 0 [] [] (mkW (t_new T) false false false false [] []).
Proof.
  unfold P. wcbn. split; [apply core_init|]. split; [split; constructor|].
  intros _. split; cbn; auto.
Qed.

Theorem timer_ok fuel depth h m : syss T down user fuel (start T depth) h = Fine m ->
  let tr := w_tr (m_world m) in
  always (timed_once down d) tr /\ answered down (@timer_answers A unit E) tr.
Proof.
  intros H.
  destruct (@lift_any _ _ _ _ _ _ T down user P Hclear Hcmd Hrun Hbegin Hend HS HC Hinit _ _ _ _ H) as (l & q & HP & F).
  destruct HP as (HC & Sh & HL). split; [apply (c_good HC)|apply (c_ans HC)].
Qed.
End Timer.
