(** The adsr operator on the scheduler, when the other tasks may do anything. *)
From Verif Require Import Base SubscrModel SchedModel SchedProofs SchedExec TimeModel TimeLift TimeSpec TimeProofs AdsrModel AdsrSpec AdsrTime.
Set Implicit Arguments.

Section Any.
Variables E X : Type.
Variable sample : curve.
Variables (alw reset : bool) (env : envelope).
Variable down : list (ncall signal E) -> bool * list (req X).
Variable user : X -> nat -> list (tev trigger signal E) -> X * bool * list (cmd trigger E X).
Notation O := (nat * env_state)%type.
Notation S := shared.
Notation W := (world trigger signal E S O X).
Notation K := (clo O X).
Notation T := (adsr (E:=E) (X:=X) sample alw reset env).
Notation good := (forwarded down).
Notation core := (core down good (@terminals trigger signal E)).
Notation seen := (seen (E:=E) sample alw reset env).
Notation framed := (framed sample alw reset).
Notation due := (due sample alw reset).
Notation timely := (timely (E:=E) down sample alw reset env).
Notation prompt := (prompt (E:=E) sample alw reset env).
Notation mk := (list (mev E)).

Lemma seen_snoc (m : mk) x : seen (m ++ [x]) = seen_step sample alw reset (seen m) x.
Proof. unfold AdsrSpec.seen. rewrite fold_left_app. reflexivity. Qed.
Lemma frames_snoc (m : mk) x : frames (m ++ [x]) = match x with MEv (XTick _) => 0 | MFrame => Datatypes.S (frames m) | _ => frames m end.
Proof. unfold frames. rewrite fold_left_app. destruct x as [[]|]; reflexivity. Qed.
Lemma unmark_ev (m : mk) e : unmark (m ++ [MEv e]) = unmark m ++ [e].
Proof. unfold unmark. rewrite flat_map_app. reflexivity. Qed.
Lemma unmark_frame (m : mk) : unmark (m ++ [MFrame]) = unmark m.
Proof. unfold unmark. rewrite flat_map_app. cbn. now rewrite app_nil_r. Qed.

Lemma framed_given v : v_given (framed v) = v_given v.
Proof. unfold AdsrSpec.framed. destruct (_ && _); auto. destruct (_ <? _); auto. now destruct (adsr_frame _ _ _ _ _ _) as [[? ?] ?]. Qed.
Lemma framed_sub v : v_sub (framed v) = v_sub v.
Proof. unfold AdsrSpec.framed. destruct (_ && _); auto. destruct (_ <? _); auto. now destruct (adsr_frame _ _ _ _ _ _) as [[? ?] ?]. Qed.
Lemma framed_last v : v_last (framed v) = v_last v \/ v_last (framed v) = v_given v.
Proof. unfold AdsrSpec.framed. destruct (_ && _); auto. destruct (_ <? _); auto. destruct (adsr_frame _ _ _ _ _ _) as [[? ?] ?]. auto. Qed.
Lemma seen_given (m : mk) : v_given (seen m) = given_time (unmark m).
Proof.
  induction m as [|x m IH] using rev_ind; [reflexivity|]. rewrite seen_snoc. destruct x as [e|].
  - rewrite unmark_ev. snocs. rewrite <- IH. destruct e as [| | |[]|]; reflexivity.
  - rewrite unmark_frame. cbn [seen_step]. rewrite framed_given. auto.
Qed.
Lemma seen_last (m : mk) : v_last (seen m) <= clock (unmark m).
Proof.
  assert (Hg : forall l : list (tev trigger signal E), given_time l <= clock l).
  { induction l as [|e l IH] using rev_ind; [auto|]. snocs. destruct e; lia. }
  induction m as [|x m IH] using rev_ind; [auto|]. rewrite seen_snoc. destruct x as [e|].
  - rewrite unmark_ev. snocs. destruct e as [| | |[]|]; cbn; lia.
  - rewrite unmark_frame. cbn [seen_step]. destruct (framed_last (seen m)) as [-> | ->]; auto. rewrite seen_given. auto.
Qed.

(** *** Marked sequences. *)
Definition stamped (m : mk) : Prop := forall p x s, m = p ++ x :: s -> timely p x.
Lemma stamped_snoc m x : stamped m -> timely m x -> stamped (m ++ [x]).
Proof.
  intros H1 H2 p x' s H. destruct s as [|z s] using rev_ind.
  - apply app_inj_tail in H. destruct H; subst; auto.
  - rewrite app_comm_cons, app_assoc in H. apply app_inj_tail in H. destruct H as [H _]. eapply H1; eauto.
Qed.
Lemma prompt_snoc m x : prompt m -> (x = MFrame -> due (seen m) = None) -> prompt (m ++ [x]).
Proof.
  intros H1 H2 p s g H Hd. destruct s as [|z s] using rev_ind.
  - apply app_inj_tail in H. destruct H; subst. rewrite H2 in Hd by auto. discriminate.
  - rewrite app_comm_cons, app_assoc in H. apply app_inj_tail in H. destruct H as [H _].
    destruct (H1 _ _ _ H Hd) as [s' ->]. simpl; eauto.
Qed.
Lemma prompt_two m g : prompt m -> due (seen m) = Some g -> prompt ((m ++ [MFrame]) ++ [MEv (XOut (Nxt g))]).
Proof.
  intros H1 H2 p s g' H Hd. destruct s as [|z s] using rev_ind.
  - apply app_inj_tail in H. destruct H as [_ H]. discriminate.
  - clear IHs. rewrite app_comm_cons, app_assoc in H. apply app_inj_tail in H. destruct H as [H <-].
    destruct s as [|z s] using rev_ind.
    + apply app_inj_tail in H. destruct H as [-> _]. rewrite H2 in Hd. injection Hd as <-. simpl. eauto.
    + rewrite app_comm_cons, app_assoc in H. apply app_inj_tail in H. destruct H as [H _].
      destruct (H1 _ _ _ H Hd) as [s' ->]. simpl; eauto.
Qed.
Record marks (m : mk) (tr : list (tev trigger signal E)) : Prop := mkMarks {
  k_tr : unmark m = tr; k_st : stamped m; k_pr : prompt m
}.
Lemma marks_ev m tr e : marks m tr -> timely m (MEv e) -> marks (m ++ [MEv e]) (tr ++ [e]).
Proof.
  intros [<- H2 H3] Ht. split.
  - apply unmark_ev.
  - apply stamped_snoc; auto.
  - apply prompt_snoc; auto. discriminate.
Qed.

Definition intick (ph : TimeLift.phase) : bool := match ph with Between => false | _ => true end.
Definition mine (ph : TimeLift.phase) (m : mk) (s : S) (b : bool) (w : work K) : Prop :=
  (exists lst, w = WContinuous lst (KO (v_last (seen m), v_es (seen m)))) /\ s = v_sh (seen m) /\ v_dead (seen m) = false /\
  (intick ph = true -> frames m = if b then 1 else 0).
Definition gone (m : mk) (l : list (bool * work K)) (q : list (qop O X)) : Prop := l = [] /\ q = [] /\ v_dead (seen m) = true.

Record live ph l q (m : mk) (w : W) : Prop := mkLive {
  lv_born : w_born w = v_sub (seen m);
  lv_task : if w_born w then one (mine ph m (w_st w)) l q \/ gone m l q
            else l = [] /\ q = [] /\ frames m = 0 /\ v_es (seen m) = es_new /\
                 v_last (seen m) = 0 /\ v_dead (seen m) = false /\ v_sh (seen m) = w_st w
}.
Definition P ph now l q (w : W) : Prop :=
  core (given ph) now (w_tr w) (w_shut w) /\ shaped (@shape X) l q /\ (w_panic w = true -> ~ steady (w_tr w)) /\
  exists m, marks m (w_tr w) /\ (w_shut w = false -> live ph l q m w).

Lemma Hclear ph now l q (w : W) : P ph now l q w <-> P ph now l q (clear w).
Proof.
  unfold P. split; intros (H1 & H2 & H2' & m & Hm & H3); (split; [auto|split; [auto|split; [auto|]]]); exists m;
    (split; [exact Hm|]); intros Hs; destruct (H3 Hs); split; auto.
Qed.

Definition able (c : cmd trigger E X) : Prop := True.
Lemma Huser x t tr : Forall able (snd (user x t tr)).
Proof. apply Forall_forall. intros. exact I. Qed.

Ltac snd_end HC := apply (@core_ans trigger signal E X down _ (@terminals trigger signal E)); simpl; auto;
  split; [|unfold last_is; eauto]; rewrite open_same by discriminate; apply (core_isopen HC); auto.

Lemma Hcmd ph now l q (w : W) c : is_up c -> ph = Between \/ able c -> Forall (@rq_ok O X) (w_rs w) ->
  P ph now l (q ++ vr now (w_rs w)) w ->
  Forall (@rq_ok O X) (w_rs (do_cmd T down w c)) /\
  P ph now l (q ++ vr now (w_rs (do_cmd T down w c))) (do_cmd T down w c).
Proof.
  intros Hc _ F HP. pose proof HP as (HC & HSh & HPan & m & Hm & HL). destruct c as [|c|r]; [| |destruct Hc].
  - cbn [do_cmd]. destruct (w_born w) eqn:Hb; [split; [auto|exact HP]|].
    unfold P. cbn [adsr t_sub]. wcbn. split. { rqs. }
    rewrite vr_app, app_assoc. rewrite vr_cont. split; [|split; [|split]].
    + apply core_note; simpl; auto.
    + apply shaped_more; auto. repeat constructor. unfold shape. eauto.
    + intros Hp. apply not_steady. auto.
    + exists (m ++ [MEv XSub]). split; [apply marks_ev; simpl; auto|].
      intros Hs. destruct (HL Hs) as [L1 L2]. rewrite Hb in *. destruct L2 as (-> & L2 & L3 & L4 & L5 & L6 & L7).
      split; wcbn; rewrite ?seen_snoc; auto.
      left. rewrite L2. constructor. unfold mine. rewrite seen_snoc, frames_snoc. cbn [seen_step view_step v_es v_last v_dead v_sh].
      rewrite L4, L5, L6, L7. split; [eauto|]. repeat split; auto.
  - cbn [do_cmd]. unfold up. destruct (w_born w) eqn:Hb; [|split; [auto|exact HP]]. cbn [negb].
    destruct c as [a|x| |]; try (destruct (w_over w) eqn:Hov; [split; [exact F|exact HP]; fail|]); cbn [adsr t_up t_torn]; wcbn.
    + (* a trigger *)
      split; auto. unfold P. wcbn. split; [|split; [auto|split]].
      * apply core_note; simpl; auto.
      * intros Hp. apply not_steady. auto.
      * exists (m ++ [MEv (XUp (Nxt a))]). split; [apply marks_ev; simpl; auto|].
        intros Hs. destruct (HL Hs) as [L1 L2]. rewrite Hb in *. split; wcbn; rewrite ?seen_snoc, ?Hb; auto.
        destruct L2 as [L2|L2].
        -- left. refine (one_imp _ _ L2). unfold mine. intros b wk (M1 & M2 & M3 & M4). rewrite seen_snoc, frames_snoc.
           cbn [seen_step view_step v_es v_last v_dead v_sh]. rewrite M2. repeat split; auto.
        -- right. unfold gone in *. rewrite seen_snoc. cbn. destruct L2 as (? & ? & ?). repeat split; auto.
    + destruct (w_shut w) eqn:Hs.
      * rewrite tell_shut by (wcbn; auto). wcbn. split; auto. unfold P. wcbn. rewrite Hs.
        split; [apply core_note; simpl; auto|]. split; [auto|]. split; [intros Hp; apply not_steady; auto|].
        eexists. split; [apply (marks_ev (XUp (Err x)) Hm); simpl; auto|discriminate].
      * match goal with |- context [tell false down ?c ?w1] => destruct (@tell_open trigger signal E S O X false down c w1) as (rs & -> & R1 & R2); [exact Hs|] end.
        unfold P. wcbn. split. { rqs. } rewrite !vr_app, R2, !app_assoc. cbn [closes andb]. rewrite app_nil_r. split; [|split; [auto|split]].
        -- snd_end HC.
        -- intros Hp. apply not_steady, not_steady. auto.
        -- eexists. split; [apply marks_ev; [apply (marks_ev (XUp (Err x)) Hm); simpl; auto|simpl; auto]|discriminate].
    + destruct (w_shut w) eqn:Hs.
      * rewrite tell_shut by (wcbn; auto). wcbn. split; auto. unfold P. wcbn. rewrite Hs.
        split; [apply core_note; simpl; auto|]. split; [auto|]. split; [intros Hp; apply not_steady; auto|].
        eexists. split; [apply (marks_ev (XUp Cmp) Hm); simpl; auto|discriminate].
      * match goal with |- context [tell false down ?c ?w1] => destruct (@tell_open trigger signal E S O X false down c w1) as (rs & -> & R1 & R2); [exact Hs|] end.
        unfold P. wcbn. split. { rqs. } rewrite !vr_app, R2, !app_assoc. cbn [closes andb]. rewrite app_nil_r. split; [|split; [auto|split]].
        -- snd_end HC.
        -- intros Hp. apply not_steady, not_steady. auto.
        -- eexists. split; [apply marks_ev; [apply (marks_ev (XUp Cmp) Hm); simpl; auto|simpl; auto]|discriminate].
    + destruct (w_shut w) eqn:Hs.
      * rewrite tell_shut by (wcbn; auto). wcbn. split. { rqs. }
        rewrite vr_app, app_assoc. change (vr now [_]) with [QC O X]. unfold P. wcbn. rewrite Hs.
        split; [|split; [|split]]; [apply core_note; simpl; auto|apply shaped_more; [auto|repeat constructor]| |].
        -- intros Hp. apply not_steady. auto.
        -- eexists. split; [apply (marks_ev (XUp Uns) Hm); simpl; auto|discriminate].
      * match goal with |- context [tell false down Uns ?w1] => destruct (@tell_open trigger signal E S O X false down Uns w1) as (rs & -> & R1 & R2); [exact Hs|] end.
        unfold P. wcbn. split. { rqs. }
        rewrite !vr_app, R2, !app_assoc. cbn [closes andb]. split; [|split; [|split]].
        -- snd_end HC.
        -- rewrite app_nil_r. apply shaped_more; [auto|repeat constructor].
        -- intros Hp. apply not_steady, not_steady. auto.
        -- eexists. split; [apply marks_ev; [apply (marks_ev (XUp Uns) Hm); simpl; auto|simpl; auto]|discriminate].
Qed.

Lemma Hrun fuel t now l1 wk l2 q (w : W) wk' r w' rs :
  P (Running t) now (l1 ++ (false, wk) :: l2) q w -> Forall (fun x => fst x = true) l1 -> owned wk = true ->
  wtick (run T down user) fuel wk t w = Some (wk', r, w', rs) ->
  Forall (@rq_ok O X) rs /\
  P (Running t) now (l1 ++ (if r then [] else [(true, wk')]) ++ l2) (q ++ vr now rs) w'.
Proof.
  intros (HC & Sh & HPan & m & Hm & HL) _ _. destruct (shaped_run _ _ _ Sh) as [(lst & [last es] & ->) Sh'].
  cbn [wtick run adsr t_run t_torn]. wcbn.
  assert (Hsh : forall o, shape (X:=X) (WContinuous (Nat.max lst t) (KO o))) by (unfold shape; eauto).
  destruct (w_shut w) eqn:Hs.
  { intros Y; injection Y as <- <- <- <-. wcbn. split; auto. cbn [vr flat_map]. rewrite app_nil_r. unfold P. wcbn. rewrite Hs.
    split; [auto|]. split; [exact (Sh' true _ (Hsh (last, es)))|]. split; [auto|]. exists m. split; [exact Hm|discriminate]. }
  destruct (HL eq_refl) as [L1 L2].
  destruct (w_born w) eqn:Hb; [|destruct L2 as [L2 _]; destruct l1; discriminate].
  destruct L2 as [L2|L2]; [|destruct L2 as [L2 _]; destruct l1; discriminate].
  apply one_run in L2. destruct L2 as (-> & -> & -> & (lst' & L2) & L3 & L4 & L5). injection L2 as <- -> ->.
  specialize (L5 eq_refl). cbn [app] in *. destruct Hm as [Ktr Kst Kpr].
  assert (Hg : v_given (seen m) = t) by (rewrite seen_given, Ktr; apply (c_given HC)).
  assert (Hframe : timely m MFrame).
  { simpl. rewrite Ktr. split; [apply (c_tick HC)|]. split; [auto|]. split; [apply (core_isopen HC); auto|]. auto. }
  symmetry in L1. rename L1 into Hsub.
  destruct (Nat.ltb_spec t (v_last (seen m))) as [Hlt|Hge].
  { intros Y; injection Y as <- <- <- <-. wcbn. split; auto. unfold P. wcbn. rewrite Hs. split; [auto|].
    split; [exact (Sh' true _ (Hsh (0, es_new)))|]. split.
    - intros _ Hst. rewrite <- Ktr in Hst. apply steady_given in Hst. pose proof (seen_last m). rewrite <- Hst, <- seen_given in *. lia.
    - assert (Hfr : framed (seen m) = mkView true t (v_sh (seen m)) (v_es (seen m)) (v_last (seen m)) true).
      { unfold AdsrSpec.framed. rewrite Hsub, L4, Hg. cbn [andb negb]. apply Nat.ltb_lt in Hlt. rewrite Hlt. reflexivity. }
      exists (m ++ [MFrame]). split.
      + split; [rewrite unmark_frame; auto|apply stamped_snoc; auto|apply prompt_snoc; auto]. intros _.
        unfold AdsrSpec.due. rewrite Hg. apply Nat.ltb_lt in Hlt. rewrite Hlt. cbn [negb]. now rewrite andb_false_r.
      + intros _. split; wcbn; rewrite ?Hb, ?seen_snoc; cbn [seen_step]; rewrite ?Hfr; auto.
        right. unfold gone. rewrite seen_snoc. cbn [seen_step]. rewrite Hfr. repeat split. }
  apply Nat.ltb_ge in Hge. rewrite L3.
  destruct (adsr_frame sample alw reset (t - v_last (seen m)) (v_sh (seen m)) (v_es (seen m))) as [[o s'] es'] eqn:Hf.
  assert (Hdue : due (seen m) = o).
  { unfold AdsrSpec.due. rewrite Hsub, L4, Hg, Hge, Hf. reflexivity. }
  assert (Hfr : framed (seen m) = mkView true t s' es' t false).
  { unfold AdsrSpec.framed. rewrite Hsub, L4, Hg, Hge, Hf. reflexivity. }
  destruct o as [g|].
  - match goal with |- context [tell false down (Nxt g) ?w1] => destruct (@tell_open trigger signal E S O X false down (Nxt g) w1) as (rs1 & -> & R1 & R2); [exact Hs|] end.
    revert R2. wcbn. cbn [app]. rewrite andb_false_r. intros R2 Y; injection Y as <- <- <- <-. wcbn. split; auto. unfold P. wcbn. rewrite R2.
    split; [|split; [|split]].
    + apply core_out; auto. split; [apply (core_isopen HC); auto|]. apply (c_tick HC).
    + exact (Sh' _ _ (Hsh (t, es'))).
    + intros Hp. apply not_steady. auto.
    + exists ((m ++ [MFrame]) ++ [MEv (XOut (Nxt g))]). split.
      * split; [rewrite unmark_ev, unmark_frame, Ktr; auto| |apply prompt_two; auto].
        apply stamped_snoc; [apply stamped_snoc; auto|]. simpl. eauto.
      * intros Hs1. rewrite Hs1. split; wcbn; rewrite ?Hb, ?seen_snoc; cbn [seen_step view_step]; rewrite ?Hfr; auto.
        left. constructor. unfold mine. rewrite !seen_snoc, !frames_snoc, L5. cbn [seen_step view_step]. rewrite Hfr. cbn. repeat split; eauto.
  - wcbn. rewrite Hs. intros Y; injection Y as <- <- <- <-. wcbn. split; auto. unfold P. wcbn. rewrite Hs. split; [auto|].
    split; [exact (Sh' false _ (Hsh (t, es')))|]. split; [auto|].
    exists (m ++ [MFrame]). split.
    + split; [rewrite unmark_frame; auto|apply stamped_snoc; auto|apply prompt_snoc; auto].
    + intros _. split; wcbn; rewrite ?Hb, ?seen_snoc; cbn [seen_step]; rewrite ?Hfr; auto.
      left. constructor. unfold mine. rewrite !seen_snoc, !frames_snoc, L5. cbn [seen_step]. rewrite Hfr. cbn. repeat split; eauto.
Qed.

Lemma Hbegin now l q (w : W) u : P Between now l q w -> Forall (fun x => fst x = true) l ->
  P (Begun u) (Nat.max now u) (map (fun x => (false, snd x)) l) q (note (XTick u) w).
Proof.
  intros (HC & Sh & HPan & m & Hm & HL) F. unfold P. wcbn. split; [|split; [|split]].
  - apply core_begin; simpl; auto.
  - apply shaped_begin; auto.
  - intros Hp. apply not_steady. auto.
  - exists (m ++ [MEv (XTick u)]). split; [apply marks_ev; simpl; auto|].
    intros Hs. destruct (HL Hs) as [L1 L2]. split; wcbn; rewrite ?seen_snoc; auto.
    destruct (w_born w).
    + destruct L2 as [L2|L2].
      * left. refine (one_begin _ _ L2). unfold mine. intros b wk (M1 & M2 & M3 & M4). rewrite seen_snoc, frames_snoc.
        cbn [seen_step view_step v_es v_last v_dead v_sh]. auto.
      * right. unfold gone in *. destruct L2 as (-> & -> & L2). rewrite seen_snoc. repeat split; auto.
    + destruct L2 as (-> & -> & L3 & L4 & L5 & L6 & L7). rewrite frames_snoc. cbn. repeat split; auto.
Qed.

Lemma Hgo t now l (w : W) : P (Begun t) now l [] w -> P (Running t) now l [] w.
Proof.
  intros (HC & Sh & HPan & m & Hm & HL). split; [exact HC|split; [exact Sh|split; [exact HPan|]]]. exists m. split; [exact Hm|].
  intros Hs. destruct (HL Hs) as [L1 L2]. split; [exact L1|exact L2].
Qed.

Lemma Hend t now l (w : W) : P (Running t) now l [] w -> Forall (fun x => fst x = true) l -> P Between now l [] (note XEnd w).
Proof.
  intros (HC & Sh & HPan & m & Hm & HL) F. unfold P. wcbn. split; [|split; [auto|split]].
  - apply (@core_end _ _ _ _ _ _ _ t); simpl; auto.
  - intros Hp. apply not_steady. auto.
  - exists (m ++ [MEv XEnd]). split.
    + apply marks_ev; auto. simpl. rewrite (k_tr Hm). intros Ho Hsub. apply (c_open HC) in Ho. destruct (HL Ho) as [L1 L2].
      rewrite L1, Hsub in L2. destruct L2 as [L2|L2]; [right|left; apply L2].
      apply one_end in L2; auto. destruct L2 as (wk & _ & _ & _ & L2). apply L2. reflexivity.
    + intros Hs. destruct (HL Hs) as [L1 L2]. split; wcbn; rewrite ?seen_snoc, ?frames_snoc; auto.
      destruct (w_born w) eqn:Hb.
      * destruct L2 as [L2|L2].
        -- left. refine (one_imp _ _ L2). unfold mine. intros b wk (M1 & M2 & M3 & M4). rewrite seen_snoc. cbn [seen_step]. repeat split; auto. discriminate.
        -- right. unfold gone in *. rewrite seen_snoc. exact L2.
      * exact L2.
Qed.

Lemma HS ph now l wk q (w : W) : P ph now l (QS wk :: q) w -> owned wk = true -> P ph now (l ++ [(false, wk)]) q w.
Proof.
  intros (HC & Sh & HPan & m & Hm & HL) _. split; [auto|split; [apply shaped_HS; auto|split; [auto|]]]. exists m. split; [exact Hm|].
  intros Hs. destruct (HL Hs) as [L1 L2]. split; auto.
  destruct (w_born w); [|destruct L2 as (_ & L2 & _); discriminate].
  destruct L2 as [L2|L2]; [left; apply one_HS; auto|]. destruct L2 as (_ & L2 & _). discriminate.
Qed.
Lemma HC ph now l q (w : W) : P ph now l (QC _ _ :: q) w -> P ph now [] q w.
Proof.
  intros (HC & Sh & HPan & m & Hm & HL). split; [auto|split; [eapply shaped_HC; eauto|split; [auto|]]]. exists m. split; [exact Hm|].
  intros Hs. destruct (HL Hs) as [L1 L2]. exfalso.
  destruct (w_born w); [|destruct L2 as (_ & L2 & _); discriminate].
  destruct L2 as [L2|L2]; [eapply one_HC; eauto|]. destruct L2 as (_ & L2 & _). discriminate.
Qed.
Lemma Hinit : P Between 0 [] [] (mkW (t_new T) false false false false [] []).
Proof.
  unfold P. wcbn. split; [apply core_init|]. split; [split; constructor|]. split; [discriminate|].
  exists []. split; [split; [reflexivity| |]; intros [|? ?] ? ?; discriminate|].
  intros _. split; cbn; auto. repeat split; auto.
Qed.

Theorem adsr_any fuel depth h s : syss T down user fuel (start T depth) h = Fine s ->
  let tr := w_tr (m_world s) in
  (exists m, unmark m = tr /\ (forall p x q, m = p ++ x :: q -> timely p x) /\ prompt m) /\
  always good tr /\ answered down (@terminals trigger signal E) tr /\ (steady tr -> w_panic (m_world s) = false).
Proof.
  intros H.
  destruct (@lift _ _ _ _ _ _ T down user P Hclear able Huser Hcmd Hrun Hbegin Hgo Hend HS HC Hinit _ _ _ _ H) as (l & q & HP & F).
  destruct HP as (HC & Sh & HPan & m & [K1 K2 K3] & HL). split; [exists m; auto|].
  split; [apply (c_good HC)|]. split; [apply (c_ans HC)|].
  intros Hst. destruct (w_panic (m_world s)); auto. exfalso. apply HPan; auto.
Qed.
End Any.

(** *** Triggers: the last activation, and of each parameter of the envelope the last change. *)
Definition changed {Y} (get : env_change -> option Y) (ts : list trigger) (y : Y) : Y :=
  fold_left (fun y t => match snd t with
                        | Some c => match get c with Some y' => y' | None => y end
                        | None => y
                        end) ts y.
Lemma changed_app : forall Y (get : env_change -> option Y) a t y,
  changed get (a ++ [t]) y = match snd t with
                             | Some c => match get c with Some y' => y' | None => changed get a y end
                             | None => changed get a y
                             end.
Proof. intros. unfold changed. now rewrite fold_left_app. Qed.
Definition given {Y} (get : env_change -> option Y) (c : env_change) : option (option Y) := option_map (@Some Y) (get c).
Theorem triggers_change : forall ts e none,
  let s := fold_left (fun s t => adsr_next t s) ts (mkShared false none e) in
  sh_active s = last (map fst ts) false /\ sh_none s = none /\
  e_attack (sh_env s) = changed c_attack ts (e_attack e) /\
  e_attack_easing (sh_env s) = changed (given c_attack_easing) ts (e_attack_easing e) /\
  e_decay (sh_env s) = changed c_decay ts (e_decay e) /\
  e_decay_easing (sh_env s) = changed (given c_decay_easing) ts (e_decay_easing e) /\
  e_sustain (sh_env s) = changed c_sustain ts (e_sustain e) /\
  e_release (sh_env s) = changed c_release ts (e_release e) /\
  e_release_easing (sh_env s) = changed (given c_release_easing) ts (e_release_easing e).
Proof.
  intros ts e none. induction ts as [|t ts IH] using rev_ind; [repeat split; reflexivity|].
  cbv zeta in *. rewrite fold_left_app, !changed_app, map_app. cbn [map fold_left]. rewrite last_last.
  destruct IH as (_ & H0 & H1 & H2 & H3 & H4 & H5 & H6 & H7).
  destruct (fold_left (fun s t => adsr_next t s) ts (mkShared false none e)) as [ac no en].
  destruct t as [a [c|]]; cbn [adsr_next fst snd sh_active sh_none sh_env apply_env_change e_attack e_attack_easing
    e_decay e_decay_easing e_sustain e_release e_release_easing] in *; [|repeat split; assumption].
  destruct c as [[|] [|] [|] [|] [|] [|] [|]]; cbn; repeat split; assumption.
Qed.
