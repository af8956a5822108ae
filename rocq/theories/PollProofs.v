(** What holds of all observables of PollModel.v. *)
From Verif Require Import Base SubscrModel SchedModel SchedProofs SchedExec TimeModel TimeLift TimeSpec TimeProofs PollModel PollSpec.
Set Implicit Arguments.

Lemma ops_snoc {A B E} (l : list (tev A B E)) e : ops (l ++ [e]) = ops l ++ match e with XUp (Nxt a) => [a] | _ => [] end.
Proof. unfold ops. rewrite flat_map_app. destruct e as [| | |[]|]; simpl; now rewrite ?app_nil_r. Qed.
Lemma tick_values_snoc {A B E} (l : list (tev A B E)) e :
  tick_values (l ++ [e]) = match e with XTick _ => [] | XOut (Nxt b) => tick_values l ++ [b] | _ => tick_values l end.
Proof. unfold tick_values. rewrite fold_left_app. destruct e as [| | |[]|[]]; reflexivity. Qed.

Section Poll.
Variables A B E S Q X : Type.
Variable s0 : S.
Variable step : A -> S -> S.
Variable q0 : Q.
Variable task : (ncall B E -> world A B E S Q X -> world A B E S Q X) -> Q ->
            world A B E S Q X -> Q * bool * world A B E S Q X.
Variable down : list (ncall B E) -> bool * list (req X).
Variable user : X -> nat -> list (tev A B E) -> X * bool * list (cmd A E X).
Notation ev := (tev A B E).
Notation W := (world A B E S Q X).
Notation K := (clo Q X).
Notation T := (polling s0 step q0 task).
Hypothesis Hpushless : forall x t l a, ~ In (CUp (Nxt a)) (snd (user x t l)).

(** What the task reads, and what it does with it. *)
Variable read : Q -> S -> option (Q * list B).
Definition emit (bs : list B) (w : W) : W := fold_left (fun w b => tell true down (Nxt b) w) bs w.
Hypothesis Htask : forall q w, match read q (w_st w) with
  | None => exists q', task (tell true down) q w = (q', true, set_panic w)
  | Some (q', bs) => exists q'' done, task (tell true down) q w = (q'', done, emit bs w) /\
      (w_shut (emit bs w) = false -> done = false /\ q'' = q')
  end.

Hypothesis Hmiss : forall q q' s, read q s = None -> read q' s = None.

(** What is read in each tick, from what happened. *)
Record due : Type := mkDue {
  d_sub : bool; d_tick : bool; d_view : S; d_q : Q; d_todo : list B; d_miss : bool
}.
Definition look (d : due) : due :=
  if d_miss d then d else
  match read (d_q d) (d_view d) with
  | Some (q, bs) => mkDue (d_sub d) (d_tick d) (d_view d) q bs false
  | None => mkDue (d_sub d) (d_tick d) (d_view d) (d_q d) [] true
  end.
Definition dstep (d : due) (e : ev) : due :=
  match e with
  | XSub => if d_sub d then d else
            let d1 := mkDue true (d_tick d) (d_view d) (d_q d) (d_todo d) (d_miss d) in
            if d_tick d then look d1 else d1
  | XTick _ => let d1 := mkDue (d_sub d) true (d_view d) (d_q d) [] (d_miss d) in
               if d_sub d then look d1 else d1
  | XEnd => mkDue (d_sub d) false (d_view d) (d_q d) (d_todo d) (d_miss d)
  | XUp (Nxt a) => mkDue (d_sub d) (d_tick d) (step a (d_view d)) (d_q d) (d_todo d) (d_miss d)
  | _ => d
  end.
Definition due_at (l : list ev) : due := fold_left dstep l (mkDue false false s0 q0 [] false).
Lemma due_snoc l e : due_at (l ++ [e]) = dstep (due_at l) e.
Proof. unfold due_at. rewrite fold_left_app. reflexivity. Qed.
Definition all_due (l : list ev) (bs : list B) : Prop := d_miss (due_at l) = true \/ d_todo (due_at l) = bs.

(** With what is known of the world: nothing happens to it in a tick. *)
Definition quiet (p : list ev) (e : ev) : Prop :=
  match e with
  | XUp (Nxt _) => ticking p = false /\ since p <> None
  | XEnd => ticking p = true
  | XTick _ => ticking p = false
  | XSub => since p = None
  | _ => True
  end.
Definition good (p : list ev) (e : ev) : Prop := polled down all_due p e /\ quiet p e.

Notation core := (core down good (@unsubscribes A B E)).

Definition shape (w : work K) : Prop := exists lst q, w = WContinuous lst (KO q).
Definition mine (tr : list ev) (b : bool) (w : work K) : Prop :=
  let d := due_at tr in
  exists lst q, w = WContinuous lst (KO q) /\
  if negb b && d_tick d
  then tick_values tr = [] /\
       if d_miss d then read q (d_view d) = None else read q (d_view d) = Some (d_q d, d_todo d)
  else q = d_q d /\ d_miss d = false /\ (d_tick d = true -> tick_values tr = d_todo d).

Record live l q (w : W) : Prop := mkLive {
  lv_task : if w_born w then one (mine (w_tr w)) l q
            else l = [] /\ q = [] /\ tick_values (w_tr w) = [] /\ d_q (due_at (w_tr w)) = q0 /\ d_todo (due_at (w_tr w)) = [] /\
                 d_miss (due_at (w_tr w)) = false
}.
Definition is_over (ph : phase) : bool := match given ph with Some _ => true | None => false end.
Record base ph (w : W) : Prop := mkBase {
  b_born : w_born w = d_sub (due_at (w_tr w));
  b_since : w_born w = some (since (w_tr w));
  b_tick : d_tick (due_at (w_tr w)) = is_over ph;
  b_st : w_st w = d_view (due_at (w_tr w));
  b_panic : w_panic w = true -> d_miss (due_at (w_tr w)) = true /\ w_born w = true;
  b_unborn : w_shut w = true -> w_born w = true;
  b_look : w_born w = true -> is_over ph = true -> read q0 (w_st w) = None -> d_miss (due_at (w_tr w)) = true
}.
Definition P ph now l q (w : W) : Prop :=
  core (given ph) now (w_tr w) (w_shut w) /\ shaped shape l q /\ base ph w /\
  (w_shut w = false -> if w_panic w then l = [] /\ q = [] else live l q w).

Lemma look_same d : d_sub (look d) = d_sub d /\ d_tick (look d) = d_tick d /\ d_view (look d) = d_view d /\
  (d_miss d = true -> d_miss (look d) = true) /\ (forall q, read q (d_view d) = None -> d_miss (look d) = true).
Proof.
  unfold look. destruct (d_miss d) eqn:Em; [repeat split; auto|]. destruct (read _ _) as [[]|] eqn:Er; repeat split; auto; try discriminate.
  intros q' Hq. rewrite (@Hmiss _ (d_q d) _ Hq) in Er. discriminate.
Qed.

Lemma Hclear ph now l q (w : W) : P ph now l q w <-> P ph now l q (clear w).
Proof.
  unfold P. split; intros (H1 & H2 & [] & H3); (split; [auto|split; [auto|split; [split; auto|]]]);
  intros Hs; specialize (H3 Hs); revert H3; wcbn; destruct (w_panic w); auto; intros []; split; auto.
Qed.

Lemma vr_cont now : vr now [QSched 0 KContinuous (KO q0)] = [QS (O:=Q) (X:=X) (WContinuous 0 (KO q0))].
Proof. unfold vr. cbn [flat_map new_work hook app]. rewrite ?later_max. reflexivity. Qed.

Definition able (c : cmd A E X) : Prop := forall a, c <> CUp (Nxt a).

Ltac ds := rewrite ?due_snoc, ?tick_values_snoc; cbn [dstep d_sub d_tick d_view d_q d_todo d_miss].

Lemma mine_up tr b w c : (forall a, c <> Nxt a) -> mine tr b w -> mine (tr ++ [XUp c]) b w.
Proof.
  intros Hc (lst & q & -> & H). exists lst, q. split; auto. ds. destruct c; [edestruct Hc; eauto| | |]; auto.
Qed.
Lemma base_up ph w c : (forall a, c <> Nxt a) -> base ph w -> forall w', w_born w' = w_born w -> w_st w' = w_st w ->
  w_panic w' = w_panic w -> w_tr w' = w_tr w ++ [XUp c] -> (w_shut w' = true -> w_born w = true) -> base ph w'.
Proof.
  intros Hc [] w' H1 H2 H3 H4 H5. split; rewrite ?H1, ?H2, ?H3, ?H4; snocs; ds; (destruct c; [edestruct Hc; eauto| | |]; auto).
Qed.
Lemma base_out ph w c : base ph w -> forall w', w_born w' = w_born w -> w_st w' = w_st w ->
  w_panic w' = w_panic w -> w_tr w' = w_tr w ++ [XOut c] -> w_born w = true -> base ph w'.
Proof. intros [] w' H1 H2 H3 H4 H5. split; rewrite ?H1, ?H2, ?H3, ?H4; snocs; ds; auto. Qed.

Lemma Hcmd ph now l q (w : W) c : is_up c -> ph = Between \/ able c -> Forall (@rq_ok Q X) (w_rs w) ->
  P ph now l (q ++ vr now (w_rs w)) w ->
  Forall (@rq_ok Q X) (w_rs (do_cmd T down w c)) /\
  P ph now l (q ++ vr now (w_rs (do_cmd T down w c))) (do_cmd T down w c).
Proof.
  intros Hc Ha F HP. pose proof HP as (HC & HSh & HB & HL). destruct c as [|c|r]; [| |destruct Hc].
  - cbn [do_cmd]. destruct (w_born w) eqn:Hb; [split; [auto|split; auto]|].
    destruct HB as [B1 B0 B2 B3 B4 B6 B5]. rewrite Hb in *.
    assert (Hn : since (w_tr w) = None) by (destruct (since (w_tr w)); [discriminate|auto]).
    assert (Hp : w_panic w = false) by (destruct (w_panic w); auto; destruct B4; auto).
    unfold P. cbn [polling t_sub]. wcbn. split. { rqs. }
    rewrite vr_app, app_assoc. rewrite vr_cont. split; [|split; [|split]].
    + apply core_note; [auto|exact I|auto|split; [exact I|exact Hn]].
    + apply shaped_more; auto. repeat constructor. exists 0, q0. auto.
    + set (d1 := mkDue true (d_tick (due_at (w_tr w))) (d_view (due_at (w_tr w))) (d_q (due_at (w_tr w)))
                       (d_todo (due_at (w_tr w))) (d_miss (due_at (w_tr w)))).
      assert (Hd : dstep (due_at (w_tr w)) XSub = if is_over ph then look d1 else d1).
      { cbn [dstep]. rewrite <- B1, <- B2. reflexivity. }
      destruct (look_same d1) as (E1 & E2 & E3 & E4 & E5).
      split; wcbn; rewrite ?due_snoc, ?Hd; snocs; rewrite ?Hn; auto; try (destruct (is_over ph); rewrite ?E1, ?E2, ?E3; auto; fail).
      * rewrite Hp. discriminate.
      * intros _ -> Hr. apply (E5 q0). rewrite B3 in Hr. exact Hr.
    + intros Hs. rewrite Hp. specialize (HL Hs). rewrite Hp in HL. destruct HL as [L2]. rewrite Hb in *. destruct L2 as (-> & L2 & L3 & L4 & L5 & L6).
      split; wcbn. rewrite L2. constructor. exists 0, q0. split; auto. ds. rewrite <- B1, L3, L4, L5, L6.
      destruct (d_tick (due_at (w_tr w))) eqn:Et; unfold look; cbn [d_miss d_q d_view d_sub d_tick d_todo negb andb].
      * destruct (read q0 (d_view _)) as [[q' bs]|] eqn:Er; cbn; rewrite Er; auto.
      * repeat split; auto.
  - cbn [do_cmd]. unfold up. destruct (w_born w) eqn:Hb; [|split; [auto|split; auto]]. cbn [negb].
    destruct c as [a|x| |]; try (destruct (w_over w) eqn:Hov; [split; [exact F|exact HP]; fail|]); cbn [polling t_up t_torn]; wcbn.
    + (* an operation *)
      destruct Ha as [->|Ha]; [|edestruct Ha; eauto]. destruct HB as [B1 B0 B2 B3 B4 B6 B5]. rewrite Hb in *.
      split; auto. unfold P. wcbn. split; [|split; [auto|split]].
      * apply core_note; [auto|exact I|auto|split; [exact I|split; [exact (c_tick HC)|intros Hsi; rewrite Hsi in B0; discriminate]]].
      * split; wcbn; snocs; ds; rewrite ?Hb, <- ?B3; auto. discriminate.
      * intros Hs. specialize (HL Hs). destruct (w_panic w); auto. destruct HL as [L2]. rewrite Hb in *. split; wcbn. rewrite Hb.
        refine (one_imp _ _ L2). intros b wk (lst & q' & -> & M). exists lst, q'. split; auto. ds. cbn in B2. rewrite B2 in *.
        rewrite andb_false_r in *. auto.
    + split; auto. split; [|split; [auto|split]]; wcbn.
      * apply core_note; [auto|exact I|auto|split; simpl; auto].
      * eapply base_up with (2 := HB); wcbn; auto; discriminate.
      * intros Hs. specialize (HL Hs). destruct (w_panic w); auto. destruct HL as [L2]. rewrite Hb in *. split; wcbn. rewrite Hb.
        refine (one_imp _ _ L2). intros. apply mine_up; auto. discriminate.
    + split; auto. split; [|split; [auto|split]]; wcbn.
      * apply core_note; [auto|exact I|auto|split; simpl; auto].
      * eapply base_up with (2 := HB); wcbn; auto; discriminate.
      * intros Hs. specialize (HL Hs). destruct (w_panic w); auto. destruct HL as [L2]. rewrite Hb in *. split; wcbn. rewrite Hb.
        refine (one_imp _ _ L2). intros. apply mine_up; auto. discriminate.
    + destruct (w_shut w) eqn:Hs.
      * rewrite tell_shut by (wcbn; auto). wcbn. split; auto. unfold P. wcbn. rewrite Hs.
        split; [|split; [auto|split; [|discriminate]]]; [apply core_note; [auto|exact I|auto|split; simpl; auto]|].
        eapply base_up with (2 := HB); wcbn; auto; discriminate.
      * match goal with |- context [tell true down Uns ?w1] => destruct (@tell_open A B E S Q X true down Uns w1) as (rs & -> & R1 & R2); [exact Hs|] end.
        unfold P. wcbn. split. { rqs. }
        rewrite !vr_app, R2, !app_assoc. cbn [closes andb]. split; [|split; [|split; [|discriminate]]].
        -- apply (@core_ans A B E X down _ (@unsubscribes A B E)); auto; (split; [|exact I]); [exact I|]. split; [|unfold last_is; eauto].
           rewrite open_same by discriminate. apply (core_isopen HC); auto.
        -- apply shaped_more; [auto|repeat constructor].
        -- eapply base_out with (w := note (XUp Uns) w); wcbn; auto. eapply base_up with (2 := HB); wcbn; auto; discriminate.
Qed.

Lemma emit_shut bs : forall w : W, w_shut w = true -> emit bs w = w.
Proof. induction bs as [|b bs IH]; intros w Hs; auto. cbn [emit fold_left]. rewrite tell_shut by auto. apply IH. auto. Qed.

(** Giving the destination the rest of what is due. *)
Lemma emit_ok t now : forall bs (w : W) rest,
  core (given (Running t)) now (w_tr w) (w_shut w) -> base (Running t) w -> Forall (@rq_ok Q X) (w_rs w) ->
  (w_shut w = false -> w_born w = true /\ d_miss (due_at (w_tr w)) = false /\ d_todo (due_at (w_tr w)) = tick_values (w_tr w) ++ bs) ->
  rest = vr now (w_rs w) ->
  core (given (Running t)) now (w_tr (emit bs w)) (w_shut (emit bs w)) /\ base (Running t) (emit bs w) /\
  Forall (@rq_ok Q X) (w_rs (emit bs w)) /\
  (exists more, vr now (w_rs (emit bs w)) = rest ++ more /\ Forall (fun x => x = QC Q X) more /\
     (w_shut (emit bs w) = false -> more = [])) /\
  w_st (emit bs w) = w_st w /\ w_born (emit bs w) = w_born w /\ w_panic (emit bs w) = w_panic w /\
  due_at (w_tr (emit bs w)) = due_at (w_tr w) /\
  (w_shut (emit bs w) = false -> tick_values (w_tr (emit bs w)) = tick_values (w_tr w) ++ bs).
Proof.
  induction bs as [|b bs IH]; intros w rest HC HB F HD ->; cbn [emit fold_left].
  - split; auto. split; auto. split; auto. split; [exists []; rewrite app_nil_r; auto|]. repeat split; auto.
    intros. now rewrite app_nil_r.
  - change (fold_left _ bs ?w') with (emit bs w'). destruct (w_shut w) eqn:Hs.
    + rewrite tell_shut, emit_shut, Hs by auto. split; auto. split; auto. split; auto.
      split; [exists []; rewrite app_nil_r; auto|]. repeat split; auto. discriminate.
    + destruct (@tell_open A B E S Q X true down (Nxt b) w Hs) as (rs & Et & R1 & R2). rewrite Et.
      destruct (HD eq_refl) as (HD0 & HD1 & HD2).
      match goal with |- context [emit bs ?w'] => specialize (IH w' (vr now (w_rs w'))) end.
      cbn [w_tr w_shut w_rs w_st w_born w_panic] in IH. destruct IH as (I1 & I2 & I3 & (more & I4 & I4' & I4'') & I5 & I6 & I7 & I8 & I9); auto.
      * apply core_out; auto. split; [|exact I]. split; [apply (core_isopen HC); auto|]. split; [rewrite (c_tick HC); auto|].
        exists bs. right. auto.
      * apply (@base_out _ w (Nxt b)); auto.
      * apply Forall_app; auto.
      * intros Hc. rewrite due_snoc, tick_values_snoc, <- app_assoc. cbn. auto.
      * rewrite due_snoc in I8. cbn [dstep] in I8. rewrite tick_values_snoc in I9.
        split; [auto|]. split; [auto|]. split; [auto|]. split; [|repeat (split; [auto; fail|]); intros Hx; rewrite I9, <- app_assoc by auto; auto].
        rewrite vr_app, R2, <- app_assoc in I4. eexists. split; [exact I4|]. split.
        -- apply Forall_app. split; auto. destruct (_ && _); auto.
        -- intros Hx. rewrite (I4'' Hx), app_nil_r. destruct (closes down (Nxt b) (w_tr w)) eqn:Ec; auto.
           exfalso. rewrite emit_shut in Hx by auto. discriminate.
Qed.

Lemma shaped_cancels l q more : shaped shape l q -> Forall (fun x => x = QC Q X) more -> shaped shape l (q ++ more).
Proof. intros H F. apply shaped_more; auto. eapply Forall_impl; [|exact F]. intros ? ->. exact I. Qed.

Lemma Hrun fuel t now l1 wk l2 q (w : W) wk' r w' rs :
  P (Running t) now (l1 ++ (false, wk) :: l2) q w -> Forall (fun x => fst x = true) l1 -> owned wk = true ->
  wtick (run T down user) fuel wk t w = Some (wk', r, w', rs) ->
  Forall (@rq_ok Q X) rs /\
  P (Running t) now (l1 ++ (if r then [] else [(true, wk')]) ++ l2) (q ++ vr now rs) w'.
Proof.
  intros (HC & Sh & HB & HL) _ _. destruct (shaped_run _ _ _ Sh) as [(lst & k & ->) Sh'].
  cbn [wtick run polling t_run t_torn].
  pose proof (Htask k (clear w)) as Ht. cbn [clear w_st] in Ht.
  assert (Hlive : w_shut w = false -> w_panic w = false /\ w_born w = true /\ l1 = [] /\ l2 = [] /\ q = [] /\ mine (w_tr w) false (WContinuous lst (KO k))).
  { intros Hs. specialize (HL Hs). destruct (w_panic w); [destruct HL as [HL _]; destruct l1; discriminate|].
    destruct HL as [L2]. destruct (w_born w); [|destruct L2 as [L2 _]; destruct l1; discriminate].
    apply one_run in L2. tauto. }
  assert (Htk : d_tick (due_at (w_tr w)) = true) by apply (b_tick HB).
  destruct (read k (w_st w)) as [[k' bs]|] eqn:Er.
  - destruct Ht as (k'' & done & Et & Ht). rewrite Et. intros Y; injection Y as <- <- <- <-.
    destruct (@emit_ok t now bs (clear w) (vr now [])) as (I1 & I2 & I3 & (more & I4 & I4' & I4'') & I5 & I6 & I7 & I8 & I9); auto.
    { destruct HB; split; auto. }
    { constructor. }
    { wcbn. intros Hs. destruct (Hlive Hs) as (Hp & Hb & -> & -> & -> & lst' & k1 & M1 & M2). injection M1 as <- <-.
      rewrite Htk in M2. cbn [negb andb] in M2. destruct M2 as [-> M2]. rewrite <- (b_st HB), Er in M2.
      destruct (d_miss _); [discriminate|]. injection M2 as _ <-. auto. }
    split; auto. rewrite I4. cbn [vr flat_map app]. split; [exact I1|]. split; [|split; [auto|]].
    + apply shaped_cancels; auto. apply Sh'. unfold shape. eauto.
    + intros Hs. destruct (Ht Hs) as [-> ->]. rewrite (I4'' Hs), app_nil_r.
      assert (Hs0 : w_shut w = false).
      { destruct (w_shut w) eqn:Hs0; auto. rewrite emit_shut in Hs by auto. cbn in Hs. congruence. }
      destruct (Hlive Hs0) as (Hp & Hb & -> & -> & -> & lst' & k1 & M1 & M2). injection M1 as <- <-.
      rewrite Htk in M2. cbn [negb andb] in M2. destruct M2 as [M0 M2]. rewrite <- (b_st HB), Er in M2.
      destruct (d_miss _) eqn:Em; [discriminate|]. injection M2 as M3 M4.
      rewrite I7. wcbn. rewrite Hp. split. rewrite I6. wcbn. rewrite Hb. constructor. eexists _, _. split; [reflexivity|]. cbn zeta. rewrite I8. wcbn. cbn [negb andb].
      rewrite (I9 Hs). wcbn. rewrite M0. auto.
  - destruct Ht as (k' & Et). rewrite Et. intros Y; injection Y as <- <- <- <-. wcbn. cbn [vr flat_map]. rewrite app_nil_r.
    assert (Hb : w_born w = true).
    { destruct (w_shut w) eqn:Hs; [apply (b_unborn HB); auto|]. destruct (Hlive eq_refl). tauto. }
    split; auto. split; [exact HC|]. split; [exact (Sh' true (WContinuous 0 (KO k)) ltac:(unfold shape; eauto))|]. split.
    + destruct HB as [B1 B0 B2 B3 B4 B6 B5]. split; wcbn; auto. intros _. split; auto. apply B5; auto. apply (@Hmiss k q0 _ Er).
    + wcbn. intros Hs. destruct (Hlive Hs) as (_ & _ & -> & -> & -> & _). auto.
Qed.

Lemma Hbegin now l q (w : W) u : P Between now l q w -> Forall (fun x => fst x = true) l ->
  P (Begun u) (Nat.max now u) (map (fun x => (false, snd x)) l) q (note (XTick u) w).
Proof.
  intros (HC & Sh & HB & HL) F. unfold P. wcbn.
  destruct HB as [B1 B0 B2 B3 B4 B6 B5].
  set (d1 := mkDue (d_sub (due_at (w_tr w))) true (d_view (due_at (w_tr w))) (d_q (due_at (w_tr w))) []
                   (d_miss (due_at (w_tr w)))).
  assert (Hd : dstep (due_at (w_tr w)) (XTick u) = if w_born w then look d1 else d1) by (cbn [dstep]; rewrite B1; reflexivity).
  destruct (look_same d1) as (E1 & E2 & E3 & E4 & E5).
  split; [|split; [|split]].
  - apply core_begin; auto. split; [exact I|exact (c_tick HC)].
  - apply shaped_begin; auto.
  - split; wcbn; rewrite ?due_snoc, ?Hd; snocs; auto; try (destruct (w_born w); rewrite ?E1, ?E2, ?E3; auto; fail).
    + intros Hp. destruct (B4 Hp) as [B7 B8]. rewrite B8. split; auto.
    + intros -> _ Hr. apply (E5 q0). rewrite B3 in Hr. exact Hr.
  - intros Hs. specialize (HL Hs). destruct (w_panic w). { destruct HL as [-> ->]. auto. }
    destruct HL as [L2]. split; wcbn. destruct (w_born w).
    + refine (one_begin _ _ L2). intros b wk (lst & k & -> & M). exists lst, k. split; auto.
      rewrite due_snoc, Hd, tick_values_snoc. rewrite E2. cbn in B2. rewrite B2, andb_false_r in M. destruct M as (-> & M & _).
      cbn. rewrite E3. unfold look. cbn. rewrite M. split; auto. destruct (read (d_q _) (d_view _)) as [[]|] eqn:Er; cbn; auto.
    + destruct L2 as (-> & -> & L3 & L4 & L5 & L6). rewrite due_snoc, Hd, tick_values_snoc. cbn. auto 7.
Qed.

Lemma Hgo t now l (w : W) : P (Begun t) now l [] w -> P (Running t) now l [] w.
Proof. intros (HC & Sh & [] & HL). split; [exact HC|split; [auto|split; [split; auto|auto]]]. Qed.

Lemma Hend t now l (w : W) : P (Running t) now l [] w -> Forall (fun x => fst x = true) l -> P Between now l [] (note XEnd w).
Proof.
  intros (HC & Sh & HB & HL) F. unfold P. wcbn. destruct HB as [B1 B0 B2 B3 B4 B6 B5]. split; [|split; [auto|split]].
  - apply (@core_end _ _ _ _ _ _ _ t); auto. split; [|exact (c_tick HC)]. simpl. intros Ho Hsi. apply (c_open HC) in Ho.
    specialize (HL Ho). unfold all_due. destruct (w_panic w) eqn:Hp. { left. destruct B4; auto. }
    destruct HL as [L2]. rewrite B0 in L2. destruct (since (w_tr w)); [|destruct Hsi; auto].
    cbn [some] in L2. apply one_end in L2; auto. destruct L2 as (wk & lst & k & _ & M). cbn in M. rewrite B2 in M. destruct M as (_ & M1 & M2).
    right. symmetry. auto.
  - split; wcbn; rewrite ?due_snoc; snocs; auto; try discriminate.
  - intros Hs. specialize (HL Hs). destruct (w_panic w) eqn:Hp; auto. destruct HL as [L2]. split; wcbn.
    destruct (w_born w).
    + inversion L2 as [b wk M E1 E2|]. subst l. apply Forall_inv in F. cbn in F. subst b. constructor.
      destruct M as (lst & k & -> & M). exists lst, k. split; auto. rewrite due_snoc, tick_values_snoc. cbn in M |- *. rewrite B2 in M.
      destruct M as (-> & M1 & M2). repeat split; auto; discriminate.
    + destruct L2 as (-> & _ & L3 & L4 & L5 & L6). rewrite due_snoc, tick_values_snoc. cbn. auto 7.
Qed.

Lemma HS ph now l wk q (w : W) : P ph now l (QS wk :: q) w -> owned wk = true -> P ph now (l ++ [(false, wk)]) q w.
Proof.
  intros (HC & Sh & HB & HL) _. split; [auto|split; [apply shaped_HS; auto|split; auto]].
  intros Hs. specialize (HL Hs). destruct (w_panic w). { destruct HL; discriminate. } destruct HL as [L2]. split; auto.
  destruct (w_born w); [apply one_HS; auto|]. destruct L2 as (_ & L2 & _). discriminate.
Qed.
Lemma HC ph now l q (w : W) : P ph now l (QC _ _ :: q) w -> P ph now [] q w.
Proof.
  intros (HC & Sh & HB & HL). split; [auto|split; [eapply shaped_HC; eauto|split; auto]].
  intros Hs. specialize (HL Hs). exfalso. destruct (w_panic w). { destruct HL; discriminate. } destruct HL as [L2].
  destruct (w_born w); [eapply one_HC; eauto|]. destruct L2 as (_ & L2 & _). discriminate.
Qed.
Lemma Hinit : P Between 0 [] [] (mkW (t_new T) false false false false [] []).
Proof.
  unfold P. wcbn. split; [apply core_init|]. split; [split; constructor|]. split.
  - split; cbn; auto; discriminate.
  - intros _. split; cbn; auto 7.
Qed.

Theorem poll_ok fuel depth h m : syss T down user fuel (start T depth) h = Fine m ->
  let tr := w_tr (m_world m) in
  always good tr /\ answered down (@unsubscribes A B E) tr /\
  (w_panic (m_world m) = true -> d_miss (due_at tr) = true).
Proof.
  intros H.
  assert (Hu : forall x t tr, Forall able (snd (user x t tr))).
  { intros x t tr. apply Forall_forall. intros c Hi a ->. exact (Hpushless _ _ _ _ Hi). }
  destruct (@lift _ _ _ _ _ _ T down user P Hclear able Hu Hcmd Hrun Hbegin Hgo Hend HS HC Hinit _ _ _ _ H) as (l & q & HP & F).
  destruct HP as (HC & Sh & HB & HL). split; [apply (c_good HC)|split; [apply (c_ans HC)|]].
  intros Hp. apply (b_panic HB). auto.
Qed.
End Poll.
