(** The adsr operator on the scheduler. *)
From Verif Require Import Base SubscrModel SchedModel SchedProofs SchedExec TimeModel TimeLift TimeSpec TimeProofs AdsrModel AdsrSpec.
Set Implicit Arguments.

Lemma steady_snoc {A B E} (l : list (tev A B E)) e : steady (l ++ [e]) ->
  steady l /\ match e with XTick t => clock l <= t | _ => True end.
Proof.
  intros H. split.
  - intros p x s Hl. apply (H p x (s ++ [e])). rewrite Hl, <- app_assoc. reflexivity.
  - apply (H l e []). reflexivity.
Qed.
Lemma steady_given {A B E} (l : list (tev A B E)) : steady l -> given_time l = clock l.
Proof.
  induction l as [|e l IH] using rev_ind; intros H; [reflexivity|]. apply steady_snoc in H. destruct H as [H1 H2].
  specialize (IH H1). snocs. destruct e; auto. lia.
Qed.

Section Adsr.
Variables E X : Type.
Variable sample : curve.
Variables (alw reset : bool) (env : envelope).
Variable down : list (ncall signal E) -> bool * list (req X).
Variable user : X -> nat -> list (tev trigger signal E) -> X * bool * list (cmd trigger E X).
Hypothesis Hquiet : quiet user.
Notation O := (nat * env_state)%type.
Notation S := shared.
Notation W := (world trigger signal E S O X).
Notation K := (clo O X).
Notation T := (adsr (E:=E) (X:=X) sample alw reset env).
Notation good := (enveloped down sample alw reset env).
Notation core := (core down good (@terminals trigger signal E)).
Notation viewed := (viewed (E:=E) sample alw reset env).
Notation framed := (framed sample alw reset).
Notation due := (due sample alw reset).

Lemma viewed_snoc l e : viewed (l ++ [e]) = view_step sample alw reset (viewed l) e.
Proof. unfold AdsrSpec.viewed. rewrite fold_left_app. reflexivity. Qed.
Lemma viewed_given l : v_given (viewed l) = given_time l.
Proof.
  induction l as [|e l IH] using rev_ind; [reflexivity|]. rewrite viewed_snoc. snocs. rewrite <- IH. destruct e as [| | |[]|]; auto.
  simpl. unfold AdsrSpec.framed. destruct (_ && _); auto. destruct (_ <? _); auto. now destruct (adsr_frame _ _ _ _ _ _) as [[? ?] ?].
Qed.
Lemma viewed_last l : v_last (viewed l) <= clock l.
Proof.
  assert (Hg : forall l : list (tev trigger signal E), given_time l <= clock l).
  { induction l0 as [|e l0 IH] using rev_ind; [auto|]. snocs. destruct e; lia. }
  induction l as [|e l IH] using rev_ind; [auto|]. rewrite viewed_snoc. snocs. destruct e as [| | |[]|]; simpl; auto; try lia.
  unfold AdsrSpec.framed. destruct (_ && _); auto. destruct (_ <? _); auto.
  destruct (adsr_frame _ _ _ _ _ _) as [[? ?] ?]. simpl. rewrite viewed_given. apply Hg.
Qed.
Lemma viewed_sub l : v_sub (viewed l) = some (since l).
Proof.
  induction l as [|e l IH] using rev_ind; [reflexivity|]. rewrite viewed_snoc. snocs. destruct e as [| | |[]|]; simpl; auto.
  - destruct (since l); auto.
  - unfold AdsrSpec.framed. destruct (_ && _); auto. destruct (_ <? _); auto. now destruct (adsr_frame _ _ _ _ _ _) as [[? ?] ?].
Qed.

Definition shape (w : work K) : Prop := exists lst o, w = WContinuous lst (KO o).
Definition intick (ph : TimeLift.phase) : bool := match ph with Between => false | _ => true end.
(** The view the task agrees with. *)
Definition vw (ph : TimeLift.phase) (b : bool) (tr : list (tev trigger signal E)) : view :=
  if intick ph && b then framed (viewed tr) else viewed tr.
Definition mine (ph : TimeLift.phase) (tr : list (tev trigger signal E)) (s : S) (b : bool) (w : work K) : Prop :=
  let v := vw ph b tr in
  (exists lst, w = WContinuous lst (KO (v_last v, v_es v))) /\ s = v_sh v /\ v_dead v = false /\
  (intick ph = true -> in_tick tr = if b then match due (viewed tr) with Some _ => 1 | None => 0 end else 0).
Definition gone (ph : TimeLift.phase) (tr : list (tev trigger signal E)) (l : list (bool * work K)) (q : list (qop O X)) : Prop :=
  l = [] /\ q = [] /\ v_dead (vw ph true tr) = true /\ (intick ph = true -> in_tick tr = 0).

Record live ph l q (w : W) : Prop := mkLive {
  lv_born : w_born w = some (since (w_tr w));
  lv_task : if w_born w then one (mine ph (w_tr w) (w_st w)) l q \/ gone ph (w_tr w) l q
            else l = [] /\ q = [] /\ in_tick (w_tr w) = 0 /\ v_es (viewed (w_tr w)) = es_new /\
                 v_last (viewed (w_tr w)) = 0 /\ v_dead (viewed (w_tr w)) = false /\ v_sh (viewed (w_tr w)) = w_st w
}.
Definition P ph now l q (w : W) : Prop :=
  core (given ph) now (w_tr w) (w_shut w) /\ shaped shape l q /\ (w_panic w = true -> ~ steady (w_tr w)) /\
  (w_shut w = false -> live ph l q w).

Lemma Hclear ph now l q (w : W) : P ph now l q w <-> P ph now l q (clear w).
Proof. unfold P. split; intros (H1 & H2 & H2' & H3); (split; [auto|split; [auto|split; [auto|]]]); intros Hs; destruct (H3 Hs); split; auto. Qed.

Lemma vr_cont now o : vr now [QSched 0 KContinuous (KO o)] = [QS (O:=O) (X:=X) (WContinuous 0 (KO o))].
Proof. reflexivity. Qed.

Lemma not_steady (l : list (tev trigger signal E)) e : ~ steady l -> ~ steady (l ++ [e]).
Proof. intros H Hs. apply H. apply steady_snoc in Hs. tauto. Qed.

(** Events that neither change the view nor the ticks. *)
Definition dull (e : tev trigger signal E) : Prop :=
  match e with XUp (Nxt _) => False | XUp _ => True | _ => False end.
Lemma live_dull ph l q w w' e : w_born w = true -> dull e -> live ph l q w ->
  w_born w' = true -> w_tr w' = w_tr w ++ [e] -> w_st w' = w_st w -> live ph l q w'.
Proof.
  intros Hb He [L1 L2] Hb' Et Es. rewrite Hb in *.
  assert (Hv : viewed (w_tr w ++ [e]) = viewed (w_tr w)) by (rewrite viewed_snoc; destruct e as [| | |[]|]; try destruct He; reflexivity).
  assert (Hi : in_tick (w_tr w ++ [e]) = in_tick (w_tr w)) by (snocs; destruct e as [| | |[]|]; try destruct He; reflexivity).
  split; rewrite ?Et, ?Hb'.
  - snocs. destruct e as [| | |[]|]; try destruct He; auto.
  - destruct L2 as [L2|L2].
    + left. refine (one_imp _ _ L2). unfold mine, vw. rewrite Hv, Hi, Es. auto.
    + right. unfold gone, vw in *. rewrite Hv, Hi. auto.
Qed.

Definition able (c : cmd trigger E X) : Prop := match c with CUp (Nxt _) => False | _ => True end.
Lemma Huser x t tr : Forall able (snd (user x t tr)).
Proof. apply Forall_forall. intros [|[a|y| |]|r] Hi; simpl; auto. exact (Hquiet _ _ _ _ Hi). Qed.

Lemma Hcmd ph now l q (w : W) c : is_up c -> ph = Between \/ able c -> Forall (@rq_ok O X) (w_rs w) ->
  P ph now l (q ++ vr now (w_rs w)) w ->
  Forall (@rq_ok O X) (w_rs (do_cmd T down w c)) /\
  P ph now l (q ++ vr now (w_rs (do_cmd T down w c))) (do_cmd T down w c).
Proof.
  intros Hc Ha F HP. pose proof HP as (HC & HSh & HPan & HL). destruct c as [|c|r]; [| |destruct Hc].
  - cbn [do_cmd]. destruct (w_born w) eqn:Hb; [split; [auto|split; auto]|].
    unfold P. cbn [adsr t_sub]. wcbn. split. { rqs. }
    rewrite vr_app, app_assoc. rewrite vr_cont. split; [|split; [|split]].
    + apply core_note; simpl; auto.
    + apply shaped_more; auto. repeat constructor. unfold shape. eauto.
    + intros Hp. apply not_steady. auto.
    + intros Hs. destruct (HL Hs) as [L1 L2]. rewrite Hb in *. destruct L2 as (-> & L2 & L3 & L4 & L5 & L6 & L7).
      assert (Hn : since (w_tr w) = None) by (destruct (since (w_tr w)); [discriminate|auto]).
      split; wcbn; snocs; rewrite ?Hn; auto.
      left. rewrite L2. constructor. unfold mine, vw. rewrite andb_false_r, viewed_snoc. snocs. cbn [view_step v_es v_last v_dead v_sh].
      rewrite L4, L5, L6, L7. split; [eauto|]. repeat split; auto.
  - cbn [do_cmd]. unfold up. destruct (w_born w) eqn:Hb; [|split; [auto|split; auto]]. cbn [negb].
    destruct c as [a|x| |]; try (destruct (w_over w) eqn:Hov; [split; [exact F|exact HP]; fail|]); cbn [adsr t_up t_torn]; wcbn.
    + (* a trigger *)
      destruct Ha as [->|Ha]; [|destruct Ha].
      split; auto. unfold P. wcbn. split; [|split; [auto|split]].
      * apply core_note; simpl; auto.
      * intros Hp. apply not_steady. auto.
      * intros Hs. destruct (HL Hs) as [L1 L2]. rewrite Hb in *. split; wcbn; snocs; rewrite ?Hb; auto.
        destruct L2 as [L2|L2].
        -- left. refine (one_imp _ _ L2). unfold mine, vw. cbn [intick andb]. intros b wk (M1 & M2 & M3 & M4). rewrite viewed_snoc.
           cbn [view_step v_es v_last v_dead v_sh]. rewrite M2. repeat split; auto. discriminate.
        -- right. unfold gone, vw in *. cbn [intick andb] in *. rewrite viewed_snoc. cbn. destruct L2 as (? & ? & ? & ?). repeat split; auto. discriminate.
    + destruct (w_shut w) eqn:Hs.
      * rewrite tell_shut by (wcbn; auto). wcbn. split; auto. unfold P. wcbn. rewrite Hs.
        split; [apply core_note; simpl; auto|]. split; [auto|]. split; [|discriminate]. intros Hp. apply not_steady. auto.
      * match goal with |- context [tell false down ?c ?w1] => destruct (@tell_open trigger signal E S O X false down c w1) as (rs & -> & R1 & R2); [exact Hs|] end.
        unfold P. wcbn. split. { rqs. } rewrite !vr_app, R2, !app_assoc. cbn [closes andb]. rewrite app_nil_r. split; [|split; [auto|split; [|discriminate]]].
        -- apply (@core_ans trigger signal E X down _ (@terminals trigger signal E)); simpl; auto. split; [|unfold last_is; eauto].
           rewrite open_same by discriminate. apply (core_isopen HC); auto.
        -- intros Hp. apply not_steady, not_steady. auto.
    + destruct (w_shut w) eqn:Hs.
      * rewrite tell_shut by (wcbn; auto). wcbn. split; auto. unfold P. wcbn. rewrite Hs.
        split; [apply core_note; simpl; auto|]. split; [auto|]. split; [|discriminate]. intros Hp. apply not_steady. auto.
      * match goal with |- context [tell false down ?c ?w1] => destruct (@tell_open trigger signal E S O X false down c w1) as (rs & -> & R1 & R2); [exact Hs|] end.
        unfold P. wcbn. split. { rqs. } rewrite !vr_app, R2, !app_assoc. cbn [closes andb]. rewrite app_nil_r. split; [|split; [auto|split; [|discriminate]]].
        -- apply (@core_ans trigger signal E X down _ (@terminals trigger signal E)); simpl; auto. split; [|unfold last_is; eauto].
           rewrite open_same by discriminate. apply (core_isopen HC); auto.
        -- intros Hp. apply not_steady, not_steady. auto.
    + destruct (w_shut w) eqn:Hs.
      * rewrite tell_shut by (wcbn; auto). wcbn. split. { rqs. }
        rewrite vr_app, app_assoc. change (vr now [_]) with [QC O X]. unfold P. wcbn. rewrite Hs.
        split; [|split; [|split; [|discriminate]]]; [apply core_note; simpl; auto|apply shaped_more; [auto|repeat constructor]|].
        intros Hp. apply not_steady. auto.
      * match goal with |- context [tell false down Uns ?w1] => destruct (@tell_open trigger signal E S O X false down Uns w1) as (rs & -> & R1 & R2); [exact Hs|] end.
        unfold P. wcbn. split. { rqs. }
        rewrite !vr_app, R2, !app_assoc. cbn [closes andb]. split; [|split; [|split; [|discriminate]]].
        -- apply (@core_ans trigger signal E X down _ (@terminals trigger signal E)); simpl; auto. split; [|unfold last_is; eauto].
           rewrite open_same by discriminate. apply (core_isopen HC); auto.
        -- rewrite app_nil_r. apply shaped_more; [auto|repeat constructor].
        -- intros Hp. apply not_steady, not_steady. auto.
Qed.

Lemma Hrun fuel t now l1 wk l2 q (w : W) wk' r w' rs :
  P (Running t) now (l1 ++ (false, wk) :: l2) q w -> Forall (fun x => fst x = true) l1 -> owned wk = true ->
  wtick (run T down user) fuel wk t w = Some (wk', r, w', rs) ->
  Forall (@rq_ok O X) rs /\
  P (Running t) now (l1 ++ (if r then [] else [(true, wk')]) ++ l2) (q ++ vr now rs) w'.
Proof.
  intros (HC & Sh & HPan & HL) _ _. destruct (shaped_run _ _ _ Sh) as [(lst & [last es] & ->) Sh'].
  cbn [wtick run adsr t_run t_torn]. wcbn.
  assert (Hsh : forall o, shape (WContinuous (Nat.max lst t) (KO o))) by (unfold shape; eauto).
  destruct (w_shut w) eqn:Hs.
  { intros Y; injection Y as <- <- <- <-. wcbn. split; auto. cbn [vr flat_map]. rewrite app_nil_r. unfold P. wcbn. rewrite Hs.
    split; [auto|]. split; [exact (Sh' true _ (Hsh (last, es)))|]. split; [auto|discriminate]. }
  destruct (HL eq_refl) as [L1 L2].
  destruct (w_born w) eqn:Hb; [|destruct L2 as [L2 _]; destruct l1; discriminate].
  destruct L2 as [L2|L2]; [|destruct L2 as [L2 _]; destruct l1; discriminate].
  apply one_run in L2. destruct L2 as (-> & -> & -> & (lst' & L2) & L3 & L4 & L5). cbn [vw intick andb] in *. injection L2 as <- -> ->.
  specialize (L5 eq_refl). cbn [app] in *.
  assert (Hg : v_given (viewed (w_tr w)) = t) by (rewrite viewed_given; apply (c_given HC)).
  assert (Hsub : v_sub (viewed (w_tr w)) = true) by (rewrite viewed_sub; auto).
  destruct (Nat.ltb_spec t (v_last (viewed (w_tr w)))) as [Hlt|Hge].
  { intros Y; injection Y as <- <- <- <-. wcbn. split; auto. unfold P. wcbn. rewrite Hs. split; [auto|].
    split; [exact (Sh' true _ (Hsh (0, es_new)))|]. split.
    - intros _ Hst. apply steady_given in Hst. pose proof (viewed_last (w_tr w)). rewrite <- Hst, <- viewed_given in *. lia.
    - intros _. split; wcbn; rewrite ?Hb; auto. right. unfold gone, vw. cbn [intick andb]. repeat split; auto.
      unfold AdsrSpec.framed. rewrite Hsub, L4, Hg. cbn [andb negb]. apply Nat.ltb_lt in Hlt. rewrite Hlt. reflexivity. }
  apply Nat.ltb_ge in Hge. rewrite L3.
  destruct (adsr_frame sample alw reset (t - v_last (viewed (w_tr w))) (v_sh (viewed (w_tr w))) (v_es (viewed (w_tr w)))) as [[o s'] es'] eqn:Hf.
  assert (Hdue : due (viewed (w_tr w)) = o).
  { unfold AdsrSpec.due. rewrite Hsub, L4, Hg, Hge, Hf. reflexivity. }
  assert (Hfr : framed (viewed (w_tr w)) = mkView true t s' es' t false).
  { unfold AdsrSpec.framed. rewrite Hsub, L4, Hg, Hge, Hf. reflexivity. }
  destruct o as [g|].
  - match goal with |- context [tell false down (Nxt g) ?w1] => destruct (@tell_open trigger signal E S O X false down (Nxt g) w1) as (rs1 & -> & R1 & R2); [exact Hs|] end.
    revert R2. wcbn. cbn [app]. rewrite andb_false_r. intros R2 Y; injection Y as <- <- <- <-. wcbn. split; auto. unfold P. wcbn. rewrite R2.
    split; [|split; [|split]].
    + apply core_out; auto. split; [apply (core_isopen HC); auto|]. split; [apply (c_tick HC)|]. auto.
    + exact (Sh' _ _ (Hsh (t, es'))).
    + intros Hp. apply not_steady. auto.
    + intros Hs1. rewrite Hs1. split; wcbn; snocs; rewrite ?Hb; auto. left. constructor. unfold mine, vw. cbn [intick andb]. rewrite viewed_snoc.
      cbn [view_step]. rewrite Hfr, Hdue. snocs. rewrite L5. cbn. repeat split; eauto.
  - wcbn. rewrite Hs. intros Y; injection Y as <- <- <- <-. wcbn. split; auto. unfold P. wcbn. rewrite Hs. split; [auto|].
    split; [exact (Sh' false _ (Hsh (t, es')))|]. split; [auto|].
    intros _. split; wcbn; rewrite ?Hb; auto. left. constructor. unfold mine, vw. cbn [intick andb]. rewrite Hfr, Hdue. cbn. repeat split; eauto.
Qed.

Lemma Hbegin now l q (w : W) u : P Between now l q w -> Forall (fun x => fst x = true) l ->
  P (Begun u) (Nat.max now u) (map (fun x => (false, snd x)) l) q (note (XTick u) w).
Proof.
  intros (HC & Sh & HPan & HL) F. unfold P. wcbn. split; [|split; [|split]].
  - apply core_begin; simpl; auto.
  - apply shaped_begin; auto.
  - intros Hp. apply not_steady. auto.
  - intros Hs. destruct (HL Hs) as [L1 L2]. split; wcbn; snocs; auto.
    destruct (w_born w).
    + destruct L2 as [L2|L2].
      * left. refine (one_begin _ _ L2). unfold mine, vw. cbn [intick andb]. intros b wk (M1 & M2 & M3 & M4). rewrite viewed_snoc.
        cbn [view_step v_es v_last v_dead v_sh]. snocs. auto.
      * right. unfold gone, vw in *. cbn [intick andb] in *. destruct L2 as (-> & -> & L2 & _). rewrite viewed_snoc. snocs. repeat split; auto.
        unfold AdsrSpec.framed. cbn. rewrite L2, andb_false_r. auto.
    + destruct L2 as (-> & -> & L3 & L4 & L5 & L6 & L7). rewrite viewed_snoc. cbn. repeat split; auto.
Qed.

Lemma Hgo t now l (w : W) : P (Begun t) now l [] w -> P (Running t) now l [] w.
Proof. intros (HC & Sh & HPan & HL). split; [exact HC|split; [exact Sh|split; [exact HPan|]]]. intros Hs. destruct (HL Hs) as [L1 L2]. split; [exact L1|exact L2]. Qed.

Lemma Hend t now l (w : W) : P (Running t) now l [] w -> Forall (fun x => fst x = true) l -> P Between now l [] (note XEnd w).
Proof.
  intros (HC & Sh & HPan & HL) F. unfold P. wcbn. split; [|split; [auto|split]].
  - apply (@core_end _ _ _ _ _ _ _ t); auto. simpl. intros Ho. apply (c_open HC) in Ho.
    destruct (HL Ho) as [L1 L2]. destruct (w_born w) eqn:Hb.
    + destruct L2 as [L2|L2].
      * apply one_end in L2; auto. destruct L2 as (wk & _ & _ & _ & L2). apply L2. reflexivity.
      * destruct L2 as (_ & _ & L2 & L3). rewrite L3 by reflexivity. unfold vw, AdsrSpec.due in *. cbn [intick andb] in L2. rewrite viewed_sub, <- L1. cbn [andb].
        unfold AdsrSpec.framed in L2. rewrite viewed_sub, <- L1 in L2. cbn [andb] in L2.
        destruct (v_dead (viewed (w_tr w))); auto. cbn [negb andb] in *.
        destruct (v_given (viewed (w_tr w)) <? v_last (viewed (w_tr w))); auto.
        destruct (adsr_frame _ _ _ _ _ _) as [[? ?] ?]. discriminate.
    + destruct L2 as (_ & _ & L3 & _). rewrite L3. unfold AdsrSpec.due. rewrite viewed_sub, <- L1. reflexivity.
  - intros Hp. apply not_steady. auto.
  - intros Hs. destruct (HL Hs) as [L1 L2]. split; wcbn; snocs; auto.
    destruct (w_born w) eqn:Hb.
    + destruct L2 as [L2|L2].
      * left. inversion L2 as [b wk H E1 E2|]; subst. apply Forall_inv in F. cbn in F. subst b. constructor.
        unfold mine, vw in *. cbn [intick andb] in *. destruct H as (M1 & M2 & M3 & M4). rewrite viewed_snoc. cbn [view_step]. repeat split; auto. discriminate.
      * right. unfold gone, vw in *. cbn [intick andb] in *. destruct L2 as (-> & _ & L2 & _). rewrite viewed_snoc. cbn [view_step]. repeat split; auto. discriminate.
    + destruct L2 as (-> & _ & L3 & L4 & L5 & L6 & L7). rewrite viewed_snoc. cbn [view_step].
      unfold AdsrSpec.framed. rewrite viewed_sub, <- L1. cbn [andb]. repeat split; auto.
Qed.

Lemma HS ph now l wk q (w : W) : P ph now l (QS wk :: q) w -> owned wk = true -> P ph now (l ++ [(false, wk)]) q w.
Proof.
  intros (HC & Sh & HPan & HL) _. split; [auto|split; [apply shaped_HS; auto|split; [auto|]]].
  intros Hs. destruct (HL Hs) as [L1 L2]. split; auto.
  destruct (w_born w); [|destruct L2 as (_ & L2 & _); discriminate].
  destruct L2 as [L2|L2]; [left; apply one_HS; auto|]. destruct L2 as (_ & L2 & _). discriminate.
Qed.
Lemma HC ph now l q (w : W) : P ph now l (QC _ _ :: q) w -> P ph now [] q w.
Proof.
  intros (HC & Sh & HPan & HL). split; [auto|split; [eapply shaped_HC; eauto|split; [auto|]]].
  intros Hs. destruct (HL Hs) as [L1 L2]. exfalso.
  destruct (w_born w); [|destruct L2 as (_ & L2 & _); discriminate].
  destruct L2 as [L2|L2]; [eapply one_HC; eauto|]. destruct L2 as (_ & L2 & _). discriminate.
Qed.
Lemma Hinit : P Between 0 [] [] (mkW (t_new T) false false false false [] []).
Proof.
  unfold P. wcbn. split; [apply core_init|]. split; [split; constructor|]. split; [discriminate|].
  intros _. split; cbn; auto. repeat split; auto.
Qed.

Theorem adsr_ok fuel depth h m : syss T down user fuel (start T depth) h = Fine m ->
  let tr := w_tr (m_world m) in
  always good tr /\ answered down (@terminals trigger signal E) tr /\ (steady tr -> w_panic (m_world m) = false).
Proof.
  intros H.
  destruct (@lift _ _ _ _ _ _ T down user P Hclear able Huser Hcmd Hrun Hbegin Hgo Hend HS HC Hinit _ _ _ _ H) as (l & q & HP & F).
  destruct HP as (HC & Sh & HPan & HL). split; [apply (c_good HC)|]. split; [apply (c_ans HC)|].
  intros Hst. destruct (w_panic (m_world m)); auto. exfalso. apply HPan; auto.
Qed.
End Adsr.
