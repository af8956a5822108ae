(** fallback_when_silent. *)
From Verif Require Import Base SubscrModel SchedModel SchedProofs SchedExec TimeModel TimeLift TimeSpec TimeProofs.
Set Implicit Arguments.

Section Fallback.
Variables A E X : Type.
Variable fb : nat -> nat -> A.
Variable down : list (ncall A E) -> bool * list (req X).
Variable user : X -> nat -> list (tev A A E) -> X * bool * list (cmd A E X).
Notation O := nat.
Notation W := (world A A E (option A) O X).
Notation K := (clo O X).
Notation T := (fallback (A:=A) (E:=E) (X:=X) fb).
Notation core := (core down (fallen down fb) (@terminals A A E)).

Definition shape (w : work K) : Prop := exists lst i, w = WContinuous lst (KO i).
Definition mine (tr : list (tev A A E)) (b : bool) (w : work K) : Prop :=
  (exists lst, w = WContinuous lst (KO (length (values tr)))) /\ in_tick tr = if b then 1 else 0.

Record live l q (w : W) : Prop := mkLive {
  lv_born : w_born w = some (since (w_tr w));
  lv_task : if w_born w then one (mine (w_tr w)) l q else l = [] /\ q = [] /\ values (w_tr w) = [] /\ in_tick (w_tr w) = 0;
  lv_st : w_st w = latest (w_tr w)
}.
Definition P ph now l q (w : W) : Prop :=
  core ph now (w_tr w) (w_shut w) /\ shaped shape l q /\ (w_shut w = false -> live l q w).

Lemma Hclear ph now l q (w : W) : P ph now l q w <-> P ph now l q (clear w).
Proof. unfold P. split; intros (H1 & H2 & H3); (split; [auto|split; [auto|]]); intros Hs; destruct (H3 Hs); split; auto. Qed.

Lemma vr_cont now : vr now [QSched 0 KContinuous (KO 0)] = [QS (O:=O) (X:=X) (WContinuous 0 (KO 0))].
Proof. unfold vr. cbn [flat_map new_work hook app]. rewrite ?later_max. reflexivity. Qed.
Lemma mine_same tr e b w : match e with XSub | XEnd | XUp _ => True | _ => False end -> mine tr b w -> mine (tr ++ [e]) b w.
Proof. unfold mine. intros He [H1 H2]. destruct e; try destruct He; snocs; auto. Qed.

Lemma finish ph now l q (w : W) c : (c = Cmp \/ exists x, c = Err x) -> Forall (@rq_ok O X) (w_rs w) -> P ph now l (q ++ vr now (w_rs w)) w ->
  let w' := tell false down Uns (ask (QCancel 0) (tell false down c (set_over (note (XUp c) w)))) in
  Forall (@rq_ok O X) (w_rs w') /\ P ph now l (q ++ vr now (w_rs w')) w'.
Proof.
  intros Hc F (HC & HSh & HL).
  destruct (w_shut w) eqn:Hs.
  - rewrite (@tell_shut A A E (option A) O X false down c) by (wcbn; auto).
    rewrite tell_shut by (wcbn; auto). wcbn. split. { rqs. }
    rewrite vr_app, app_assoc. change (vr now [_]) with [QC O X]. unfold P. wcbn. rewrite Hs.
    split; [|split; [|discriminate]]; [|apply shaped_more; [auto|repeat constructor]].
    apply core_note; simpl; auto.
  - match goal with |- context [tell false down c ?w1] => destruct (@tell_open A A E (option A) O X false down c w1) as (rs & -> & R1 & R2); [exact Hs|] end.
    assert (Ecl : closes down c (w_tr w ++ [XUp c]) = true) by (destruct Hc as [->|[x ->]]; auto). revert R2.
    wcbn. rewrite Ecl. rewrite tell_shut by (wcbn; auto). unfold P. wcbn. intros R2.
    split. { rqs. }
    rewrite !vr_app, R2, !app_assoc. cbn [andb]. rewrite app_nil_r. split; [|split; [|discriminate]].
    + rewrite <- Ecl. apply (@core_ans A A E X down _ (@terminals A A E)); auto; try (destruct Hc as [->|[x ->]]; exact I || reflexivity).
      split; [rewrite open_same by discriminate; apply (core_isopen HC); auto|].
      destruct Hc as [->|[x ->]]; unfold last_is; eauto.
    + apply shaped_more; [auto|repeat constructor].
Qed.

Lemma Hcmd ph now l q (w : W) c : is_up c -> Forall (@rq_ok O X) (w_rs w) ->
  P ph now l (q ++ vr now (w_rs w)) w ->
  Forall (@rq_ok O X) (w_rs (do_cmd T down w c)) /\
  P ph now l (q ++ vr now (w_rs (do_cmd T down w c))) (do_cmd T down w c).
Proof.
  intros Hc F HP. pose proof HP as (HC & HSh & HL). destruct c as [|c|r]; [| |destruct Hc].
  - cbn [do_cmd]. destruct (w_born w) eqn:Hb; [split; [auto|split; auto]|].
    unfold P. cbn [fallback t_sub]. wcbn. split. { rqs. }
    rewrite vr_app, app_assoc. rewrite vr_cont. split; [|split].
    + apply core_note; simpl; auto.
    + apply shaped_more; auto. repeat constructor. exists 0, 0. auto.
    + intros Hs. destruct (HL Hs) as [L1 L2 L3]. rewrite Hb in *. destruct L2 as (-> & L2 & L4 & L5).
      assert (Hn : since (w_tr w) = None) by (destruct (since (w_tr w)); [discriminate|auto]).
      split; wcbn; snocs; rewrite ?Hn; auto.
      rewrite L2. constructor. split; snocs; auto. rewrite L4. eauto.
  - cbn [do_cmd]. unfold up. destruct (w_born w) eqn:Hb; [|split; [auto|split; auto]]. cbn [negb].
    destruct c as [a|x| |]; try (destruct (w_over w) eqn:Hov; [split; [exact F|exact HP]; fail|]); cbn [fallback t_up t_torn]; wcbn.
    + (* a value *)
      split; auto. unfold P. wcbn. split; [|split; auto].
      * apply core_note; simpl; auto.
      * intros Hs. destruct (HL Hs) as [L1 L2 L3]. rewrite Hb in *. split; wcbn; snocs; rewrite ?Hb; auto.
        refine (one_imp _ _ L2). intros. apply mine_same; simpl; auto.
    + apply finish; eauto.
    + apply finish; eauto.
    + destruct (w_shut w) eqn:Hs.
      * rewrite tell_shut by (wcbn; auto). wcbn. split. { rqs. }
        rewrite vr_app, app_assoc. change (vr now [_]) with [QC O X]. unfold P. wcbn. rewrite Hs.
        split; [|split; [|discriminate]]; [apply core_note; simpl; auto|apply shaped_more; [auto|repeat constructor]].
      * match goal with |- context [tell false down Uns ?w1] => destruct (@tell_open A A E (option A) O X false down Uns w1) as (rs & -> & R1 & R2); [exact Hs|] end.
        unfold P. wcbn. split. { rqs. }
        rewrite !vr_app, R2, !app_assoc. cbn [closes andb]. split; [|split; [|discriminate]].
        -- apply (@core_ans A A E X down _ (@terminals A A E)); simpl; auto. split; [|unfold last_is; eauto].
           rewrite open_same by discriminate. apply (core_isopen HC); auto.
        -- rewrite app_nil_r. apply shaped_more; [auto|repeat constructor].
Qed.

Lemma Hrun fuel t now l1 wk l2 q (w : W) wk' r w' rs :
  P (Some t) now (l1 ++ (false, wk) :: l2) q w -> Forall (fun x => fst x = true) l1 -> owned wk = true ->
  wtick (run T down user) fuel wk t w = Some (wk', r, w', rs) ->
  Forall (@rq_ok O X) rs /\
  P (Some t) now (l1 ++ (if r then [] else [(true, wk')]) ++ l2) (q ++ vr now rs) w'.
Proof.
  intros (HC & Sh & HL) _ _. destruct (shaped_run _ _ _ Sh) as [(lst & i & ->) Sh'].
  cbn [wtick run fallback t_run t_torn]. intros Y; injection Y as <- <- <- <-. wcbn.
  assert (Hsh : shape (WContinuous (Nat.max lst t) (KO (S i)))) by (unfold shape; eauto).
  destruct (w_shut w) eqn:Hs.
  { rewrite tell_shut by auto. wcbn. split; auto. cbn [vr flat_map]. rewrite app_nil_r. unfold P. wcbn. rewrite Hs.
    split; [auto|]. split; [exact (Sh' false _ Hsh)|discriminate]. }
  destruct (HL eq_refl) as [L1 L2 L3].
  destruct (w_born w) eqn:Hb; [|destruct L2 as [L2 _]; destruct l1; discriminate].
  apply one_run in L2. destruct L2 as (-> & -> & -> & (lst' & L2) & L4). injection L2 as <- ->.
  set (a := match w_st w with Some a => a | None => fb t (length (values (w_tr w))) end).
  match goal with |- context [tell false down (Nxt a) ?w1] => destruct (@tell_open A A E (option A) O X false down (Nxt a) w1) as (rs & -> & R1 & R2); [exact Hs|] end.
  unfold P. wcbn. cbn [app] in *. split; auto. rewrite R2, andb_false_r. split; [|split].
  - apply core_out; auto. split; [apply (core_isopen HC); auto|]. split; [apply (c_tick HC)|]. split; [auto|].
    unfold a. rewrite L3. rewrite (c_given HC). reflexivity.
  - exact (Sh' false _ Hsh).
  - intros Hs1. split; wcbn; snocs; rewrite ?Hb; auto. constructor. split; snocs; [|rewrite L4; auto].
    rewrite app_length, Nat.add_1_r. eauto.
Qed.

Lemma Hbegin now l q (w : W) u : P None now l q w -> Forall (fun x => fst x = true) l ->
  P (Some u) (Nat.max now u) (map (fun x => (false, snd x)) l) q (note (XTick u) w).
Proof.
  intros (HC & Sh & HL) F. unfold P. wcbn. split; [|split].
  - apply core_begin; simpl; auto.
  - apply shaped_begin; auto.
  - intros Hs. destruct (HL Hs) as [L1 L2 L3]. split; wcbn; snocs; auto.
    destruct (w_born w).
    + refine (one_begin _ _ L2). intros b wk [M1 M2]. split; snocs; auto.
    + destruct L2 as (-> & -> & L2 & L4). auto.
Qed.

Lemma Hend t now l (w : W) : P (Some t) now l [] w -> Forall (fun x => fst x = true) l -> P None now l [] (note XEnd w).
Proof.
  intros (HC & Sh & HL) F. unfold P. wcbn. split; [|split; auto].
  - apply (@core_end _ _ _ _ _ _ _ t); auto. simpl. intros Ho. apply (c_open HC) in Ho.
    destruct (HL Ho) as [L1 L2 L3]. intros Hsi. rewrite L1 in L2. destruct (since (w_tr w)); [|destruct Hsi; auto].
    cbn [some] in L2. apply one_end in L2; auto. destruct L2 as (wk & _ & L2). auto.
  - intros Hs. destruct (HL Hs) as [L1 L2 L3]. split; wcbn; snocs; auto.
    destruct (w_born w); auto. refine (one_imp _ _ L2). intros. apply mine_same; simpl; auto.
Qed.

Lemma HS ph now l wk q (w : W) : P ph now l (QS wk :: q) w -> owned wk = true -> P ph now (l ++ [(false, wk)]) q w.
Proof.
  intros (HC & Sh & HL) _. split; [auto|split; [apply shaped_HS; auto|]].
  intros Hs. destruct (HL Hs) as [L1 L2 L3]. split; auto.
  destruct (w_born w); [apply one_HS; auto|]. destruct L2 as (_ & L2 & _). discriminate.
Qed.
Lemma HC ph now l q (w : W) : P ph now l (QC _ _ :: q) w -> P ph now [] q w.
Proof.
  intros (HC & Sh & HL). split; [auto|split; [eapply shaped_HC; eauto|]].
  intros Hs. destruct (HL Hs) as [L1 L2 L3]. exfalso.
  destruct (w_born w); [eapply one_HC; eauto|]. destruct L2 as (_ & L2 & _). discriminate.
Qed.
Lemma Hinit : P None 0 [] [] (mkW (t_new T) false false false false [] []).
Proof.
  unfold P. wcbn. split; [apply core_init|]. split; [split; constructor|].
  intros _. split; cbn; auto.
Qed.

Theorem fallback_ok fuel depth h m : syss T down user fuel (start T depth) h = Fine m ->
  let tr := w_tr (m_world m) in
  always (fallen down fb) tr /\ answered down (@terminals A A E) tr.
Proof.
  intros H.
  destruct (@lift_any _ _ _ _ _ _ T down user P Hclear Hcmd Hrun Hbegin Hend HS HC Hinit _ _ _ _ H) as (l & q & HP & F).
  destruct HP as (HC & Sh & HL). split; [apply (c_good HC)|apply (c_ans HC)].
Qed.
End Fallback.
