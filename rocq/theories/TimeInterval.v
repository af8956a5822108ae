(** interval. *)
From Verif Require Import Base SubscrModel SchedModel SchedProofs SchedExec TimeModel TimeLift TimeSpec TimeProofs.
Set Implicit Arguments.

Section Interval.
Variables A E X : Type.
Variable d : nat.
Variable now0 : bool.
Variable cap0 : nat.
Hypothesis Hd : 0 < d.
Variable down : list (ncall nat E) -> bool * list (req X).
Variable user : X -> nat -> list (tev A nat E) -> X * bool * list (cmd A E X).
Notation O := nat.
Notation W := (world A nat E unit O X).
Notation K := (clo O X).
Notation T := (interval (A:=A) (E:=E) (X:=X) d now0 cap0).
Notation cap := (if cap0 =? 0 then 1 else cap0).
Notation ans := (@unsubscribes A nat E).
Notation core := (core down (at_intervals down d now0 cap) ans).
Notation first := (if now0 then 1 else 0).

Definition shape (w : work K) : Prop := exists consumed cur n, w = WRepeating false consumed cur d cap (KO n).
(** [j] periods were taken into account, of those that ended by [now]; [room]: how many may follow in this tick. *)
Definition tally (now : nat) (tr : list (tev A nat E)) (room consumed n j : nat) : Prop :=
  n = length (values tr) /\ exists s, since tr = Some s /\ s <= now /\ consumed = s + j * d /\ j <= (now - s) / d /\
  n + Nat.min room ((now - s) / d - j) = first + periods d cap tr.
Definition mine (ph : option nat) (now : nat) (tr : list (tev A nat E)) (b : bool) (w : work K) : Prop :=
  exists consumed cur n j, w = WRepeating false consumed cur d cap (KO n) /\ tally now tr cap consumed n j /\
  match ph with Some t => Nat.max cur t = now | None => cur = now /\ now < consumed + d end /\
  (b = true -> cur = now /\ now < consumed + d).

Record live ph now l q (w : W) : Prop := mkLive {
  lv_task : if w_born w then one (mine ph now (w_tr w)) l q
            else l = [] /\ q = [] /\ since (w_tr w) = None /\ values (w_tr w) = [] /\ periods d cap (w_tr w) = 0
}.
Definition P ph now l q (w : W) : Prop :=
  core ph now (w_tr w) (w_shut w) /\ shaped shape l q /\ (w_shut w = false -> live ph now l q w).

Lemma Hclear ph now l q (w : W) : P ph now l q w <-> P ph now l q (clear w).
Proof. unfold P. split; intros (H1 & H2 & H3); (split; [auto|split; [auto|]]); intros Hs; destruct (H3 Hs); split; auto. Qed.

Lemma vr_rep now n : vr now [QSched 0 (KRepeating d false cap0) (KO n)] = [QS (O:=O) (X:=X) (WRepeating false now now d cap (KO n))].
Proof. unfold vr. cbn [flat_map new_work hook app]. rewrite ?later_max. reflexivity. Qed.

Lemma tally_same now tr room consumed n j e : match e with XEnd | XUp _ => True | _ => False end ->
  tally now tr room consumed n j -> tally now (tr ++ [e]) room consumed n j.
Proof. intros He (H1 & s & H2 & H3). unfold tally. destruct e; try destruct He; snocs; eauto. Qed.
Lemma mine_same ph now tr e b w : match e with XUp _ => True | _ => False end -> mine ph now tr b w -> mine ph now (tr ++ [e]) b w.
Proof.
  unfold mine. intros He (consumed & cur & n & j & H1 & H2 & H3). exists consumed, cur, n, j. split; auto. split; auto.
  apply tally_same; auto. destruct e; auto.
Qed.
Lemma live_same ph now l q w w' e : w_born w = true -> match e with XUp _ => True | _ => False end -> live ph now l q w ->
  w_born w' = true -> w_tr w' = w_tr w ++ [e] -> live ph now l q w'.
Proof.
  intros Hb He [L1] Hb' Et. rewrite Hb in *. split; rewrite Et, ?Hb'.
  refine (one_imp _ _ L1). intros. apply mine_same; simpl; auto.
Qed.

Lemma shaped_any l q n : shaped shape l q -> forall now, shaped shape l (q ++ [QS (O:=O) (X:=X) (WRepeating false now now d cap (KO n))]).
Proof. intros. apply shaped_more; auto. repeat constructor. unfold shape; eauto. Qed.

Lemma fresh ph now (tr' : list (tev A nat E)) (n : nat) :
  match ph with Some t => t <= now | None => True end ->
  length (values tr') = first -> since tr' = Some now -> periods d cap tr' = 0 -> n = first ->
  mine ph now tr' false (WRepeating false now now d cap (KO n)).
Proof.
  intros Ht Hv Hs Hp ->. exists now, now, first, 0. split; auto. split; [|split; [|discriminate]].
  - split; auto. exists now. split; auto. split; auto. split; [lia|]. rewrite Nat.sub_diag, Nat.div_0_l by lia.
    split; auto. rewrite Hp. lia.
  - destruct ph; lia.
Qed.

Lemma Hcmd ph now l q (w : W) c : is_up c -> Forall (@rq_ok O X) (w_rs w) ->
  P ph now l (q ++ vr now (w_rs w)) w ->
  Forall (@rq_ok O X) (w_rs (do_cmd T down w c)) /\
  P ph now l (q ++ vr now (w_rs (do_cmd T down w c))) (do_cmd T down w c).
Proof.
  intros Hc F HP. pose proof HP as (HC & HSh & HL). destruct c as [|c|r]; [| |destruct Hc].
  - cbn [do_cmd]. destruct (w_born w) eqn:Hb; [split; [auto|split; auto]|].
    cbn [interval t_sub t_torn].
    destruct (w_shut w) eqn:Hs.
    { assert (E1 : (if now0 then tell true down (Nxt 0) (note XSub (set_born w)) else note XSub (set_born w)) = note XSub (set_born w)).
      { destruct now0; auto. apply tell_shut; auto. }
      rewrite E1. wcbn. rewrite Hs. unfold P. wcbn. split. { rqs. }
      rewrite !vr_app, !app_assoc, vr_rep, Hs. split; [|split; [|discriminate]].
      - apply core_note; simpl; auto.
      - apply shaped_more; [|repeat constructor]. apply shaped_any; auto. }
    destruct (HL eq_refl) as [L1]. rewrite Hb in L1. destruct L1 as (-> & L2 & L3 & L4 & L5).
    assert (Hnd : now0 = true \/ now0 = false) by (destruct now0; auto).
    assert (C1 : core ph now (w_tr w ++ [XSub]) false) by (apply core_note; simpl; auto).
    destruct Hnd as [Hnow|Hnow]; rewrite Hnow.
    + match goal with |- context [tell true down (Nxt 0) ?w1] => destruct (@tell_open A nat E unit O X true down (Nxt 0) w1) as (rs & -> & R1 & R2); [exact Hs|] end.
      revert R2. wcbn. rewrite andb_true_r. intros R2.
      assert (C2 := core_out (Nxt 0) C1). 
      assert (C3 : core ph now ((w_tr w ++ [XSub]) ++ [XOut (Nxt 0)]) (closes down (Nxt 0) (w_tr w ++ [XSub]))).
      { apply C2; auto. split; [apply (core_isopen C1); auto|]. snocs. rewrite L4, L5, Hnow. split; auto. split; [lia|]. left. split; auto.
        unfold last_is; eauto. }
      destruct (closes down (Nxt 0) (w_tr w ++ [XSub])); unfold P; wcbn; (split; [rqs|]).
      * rewrite !vr_app, !app_assoc, vr_rep, R2. split; [auto|split; [|discriminate]].
        apply shaped_more; [|repeat constructor]. apply shaped_any. apply shaped_more; [auto|repeat constructor].
      * rewrite !vr_app, !app_assoc, vr_rep, R2, app_nil_r. split; [auto|split].
        -- apply shaped_any; auto.
        -- intros _. split. wcbn. rewrite L2. constructor. apply fresh; snocs; rewrite ?L3, ?L4, ?L5, ?Hnow, <- ?(c_clock HC); auto.
           apply (c_t HC).
    + wcbn. rewrite Hs. unfold P. wcbn. split; [rqs|]. rewrite !vr_app, !app_assoc, vr_rep, Hs. split; [auto|split].
      * apply shaped_any; auto.
      * intros _. split. wcbn. rewrite L2. constructor. apply fresh; snocs; rewrite ?L3, ?L4, ?L5, ?Hnow, <- ?(c_clock HC); auto.
        apply (c_t HC).
  - cbn [do_cmd]. unfold up. destruct (w_born w) eqn:Hb; [|split; [auto|split; auto]]. cbn [negb].
    destruct c as [a|x| |]; try (destruct (w_over w) eqn:Hov; [split; [exact F|exact HP]; fail|]); cbn [interval t_up t_torn]; wcbn.
    1, 2, 3: split; auto; unfold P; wcbn; (split; [apply core_note; simpl; auto|split; [auto|]]);
      intros Hs; eapply (@live_same ph now _ _ w); simpl; auto; simpl; auto.
    destruct (w_shut w) eqn:Hs.
    + wcbn. split. { rqs. }
      rewrite vr_app, app_assoc. change (vr now [_]) with [QC O X]. unfold P. wcbn. rewrite Hs.
      split; [|split; [|discriminate]]; [apply core_note; simpl; auto|apply shaped_more; [auto|repeat constructor]].
    + match goal with |- context [tell true down Uns ?w1] => destruct (@tell_open A nat E unit O X true down Uns w1) as (rs & -> & R1 & R2); [exact Hs|] end.
      unfold P. wcbn. split. { rqs. }
      rewrite !vr_app, R2, !app_assoc. cbn [closes andb]. split; [|split; [|discriminate]].
      * apply (@core_ans A nat E X down _ ans); simpl; auto. split; [|unfold last_is; eauto].
        rewrite open_same by discriminate. apply (core_isopen HC); auto.
      * apply shaped_more; [|repeat constructor]. apply shaped_more; [auto|repeat constructor].
Qed.

Lemma loop t now cur : forall fuel consumed n j res execs (g : W) wk' r g' rs,
  wrep (run T down user) fuel t d cap false consumed cur (KO n) res execs g = Some (wk', r, g', rs) ->
  core (Some t) now (w_tr g) (w_shut g) ->
  (w_shut g = false -> cur = now /\ res = false /\ tally now (w_tr g) (cap - execs) consumed n j) ->
  Forall (@rq_ok O X) rs /\ Forall (fun x => match x with QS _ => False | QC _ _ => True end) (vr now rs) /\
  core (Some t) now (w_tr g') (w_shut g') /\ w_born g' = w_born g /\
  exists consumed' n' j', wk' = WRepeating false consumed' cur d cap (KO n') /\
  (w_shut g' = false -> r = false /\ vr now rs = [] /\ tally now (w_tr g') cap consumed' n' j' /\ now < consumed' + d /\ w_shut g = false).
Proof.
  induction fuel as [|fuel IH]; intros consumed n j res execs g wk' r g' rs; cbn [wrep]; rewrite orb_false_r.
  - destruct ((consumed + d <=? cur) && negb res) eqn:Hc; [discriminate|]. intros Y; injection Y as <- <- <- <-. intros HC HT.
    split; auto. split; [constructor|]. split; auto. split; auto. exists consumed, n, j. split; auto. intros Hs. destruct (HT Hs) as (-> & -> & H).
    split; auto. split; auto.
    rewrite andb_true_r in Hc. apply Nat.leb_gt in Hc. split; auto. destruct H as (H1 & s & H2 & H3 & H4 & H5 & H6). split; auto.
    exists s. split; auto. split; auto. split; auto. split; auto.
    assert ((now - s) / d <= j). { enough ((now - s) / d < S j) by lia. apply Nat.div_lt_upper_bound; lia. } lia.
  - destruct ((consumed + d <=? cur) && negb res) eqn:Hc.
    2: { intros Y; injection Y as <- <- <- <-. intros HC HT.
      split; auto. split; [constructor|]. split; auto. split; auto. exists consumed, n, j. split; auto. intros Hs. destruct (HT Hs) as (-> & -> & H).
      split; auto. split; auto.
      rewrite andb_true_r in Hc. apply Nat.leb_gt in Hc. split; auto. destruct H as (H1 & s & H2 & H3 & H4 & H5 & H6). split; auto.
      exists s. split; auto. split; auto. split; auto. split; auto.
      assert ((now - s) / d <= j). { enough ((now - s) / d < S j) by lia. apply Nat.div_lt_upper_bound; lia. } lia. }
    apply andb_true_iff in Hc. destruct Hc as [Hc Hr]. apply Nat.leb_le in Hc. destruct res; [discriminate|]. clear Hr.
    intros Hw HC HT. revert Hw.
    assert (Next : w_shut g = false -> forall room, room = cap - execs -> forall tr' n', since tr' = since (w_tr g) -> periods d cap tr' = periods d cap (w_tr g) ->
      n' = length (values tr') -> n' = n + Nat.min room 1 -> tally now tr' (cap - S execs) (consumed + d) n' (S j)).
    { intros Hs room -> tr' n' E1 E2 E3 E4. destruct (HT Hs) as (-> & _ & H1 & s & H2 & H3 & H4 & H5 & H6). split; auto. exists s.
      rewrite E1, E2. split; auto. split; auto. split; [lia|].
      assert (S j <= (now - s) / d) by (apply Nat.div_le_lower_bound; lia). split; auto. lia. }
    destruct (execs <? cap) eqn:He.
    + apply Nat.ltb_lt in He. cbn [run interval t_run t_torn]. wcbn. destruct (w_shut g) eqn:Hs.
      * wcbn. cbn [orb]. match goal with |- context [wrep ?R ?f ?t ?i ?c ?im ?co ?cu ?k ?re ?ex ?g] => destruct (wrep R f t i c im co cu k re ex g) as [[[[w1 r1] g1] rs1]|] eqn:Hw end; [|discriminate].
        intros Y; injection Y as <- <- <- <-. apply IH with (j := j) in Hw; wcbn; rewrite ?Hs; auto; try congruence.
        cbn [app]. destruct Hw as (Q1 & Q2 & Q3 & Q4 & c' & n' & j' & Q5 & Q6). rewrite Q4. split; auto. split; auto. split; auto. split; auto.
        exists c', n', j'. split; auto. intros Hs'. destruct (Q6 Hs') as (_ & _ & _ & _ & Q7). revert Q7. wcbn. congruence.
      * destruct (HT eq_refl) as (-> & _ & Tl).
        destruct (@tell_open A nat E unit O X true down (Nxt n) (clear g)) as (rs1 & -> & R1 & R2); [exact Hs|].
        revert R2. wcbn. rewrite andb_true_r. cbn [app orb]. intros R2.
        assert (C1 : core (Some t) now (w_tr g ++ [XOut (Nxt n)]) (closes down (Nxt n) (w_tr g))).
        { apply core_out; auto. split; [apply (core_isopen HC); auto|]. destruct Tl as (H1 & s & H2 & H3 & H4 & H5 & H6).
          assert (S j <= (now - s) / d) by (apply Nat.div_le_lower_bound; lia).
          split; auto. split; [lia|]. right. apply (c_tick HC). }
        match goal with |- context [wrep ?R ?f ?t ?i ?c ?im ?co ?cu ?k ?re ?ex ?g] => destruct (wrep R f t i c im co cu k re ex g) as [[[[w1 r1] g1] rs2]|] eqn:Hw end; [|discriminate].
        intros Y; injection Y as <- <- <- <-. apply IH with (j := S j) in Hw; wcbn; auto.
        2: { intros Hcl. split; auto. split; auto. apply (Next eq_refl (cap - execs)); snocs; auto; rewrite ?app_length; cbn [length].
             - destruct Tl as [-> _]. lia.
             - lia. }
        destruct Hw as (Q1 & Q2 & Q3 & Q4 & c' & n' & j' & Q5 & Q6). revert Q4 Q6. wcbn. intros Q4 Q6.
        split. { rqs. } rewrite vr_app, R2. split. { apply Forall_app; split; auto. destruct (closes down _ _); repeat constructor. }
        split; auto. split; auto. exists c', n', j'. split; auto. intros Hs'. destruct (Q6 Hs') as (Q7 & Q8 & Q9 & Q10 & Q11).
        rewrite Q11, Q8. auto.
    + apply Nat.ltb_ge in He.
      match goal with |- context [wrep ?R ?f ?t ?i ?c ?im ?co ?cu ?k ?re ?ex ?g] => destruct (wrep R f t i c im co cu k re ex g) as [[[[w1 r1] g1] rs2]|] eqn:Hw end; [|discriminate].
      intros Y; injection Y as <- <- <- <-. apply IH with (j := S j) in Hw; auto.
      intros Hs. destruct (HT Hs) as (-> & _ & Tl). split; auto. split; auto. apply (Next Hs (cap - execs)); auto.
      * apply Tl.
      * lia.
Qed.

Lemma Hrun fuel t now l1 wk l2 q (w : W) wk' r w' rs :
  P (Some t) now (l1 ++ (false, wk) :: l2) q w -> Forall (fun x => fst x = true) l1 -> owned wk = true ->
  wtick (run T down user) fuel wk t w = Some (wk', r, w', rs) ->
  Forall (@rq_ok O X) rs /\
  P (Some t) now (l1 ++ (if r then [] else [(true, wk')]) ++ l2) (q ++ vr now rs) w'.
Proof.
  intros (HC & Sh & HL) _ _. destruct (shaped_run _ _ _ Sh) as [(consumed & cur & n & ->) Sh'].
  cbn [wtick]. intros Hw.
  destruct (w_shut w) eqn:Hs.
  { eapply (@loop t now) with (j := 0) in Hw; rewrite ?Hs; auto; [|discriminate].
    destruct Hw as (Q1 & Q2 & Q3 & Q4 & c' & n' & j' & -> & Q6). split; auto. split; auto. split.
    - apply shaped_more; [apply Sh'; unfold shape; eauto|]. eapply Forall_impl; [|exact Q2]. intros []; tauto.
    - intros Hs'. destruct (Q6 Hs') as (_ & _ & _ & _ & ?). congruence. }
  destruct (HL eq_refl) as [L1].
  destruct (w_born w) eqn:Hb; [|destruct L1 as [L1 _]; destruct l1; discriminate].
  apply one_run in L1. destruct L1 as (-> & -> & -> & c & cu & n0 & j & E1 & E2 & E3 & E4). injection E1 as <- <- <-.
  eapply (@loop t now) with (j := j) in Hw; rewrite ?Hs; auto.
  2: { intros _. split; auto. split; auto. rewrite Nat.sub_0_r. auto. }
  destruct Hw as (Q1 & Q2 & Q3 & Q4 & c' & n' & j' & -> & Q6). split; auto. split; auto. split.
  - apply shaped_more; [apply Sh'; unfold shape; eauto|]. eapply Forall_impl; [|exact Q2]. intros []; tauto.
  - intros Hs'. destruct (Q6 Hs') as (-> & Q7 & Q8 & Q9 & _). split. rewrite Q4, Hb, Q7. constructor.
    exists c', (Nat.max cur t), n', j'. split; auto. split; auto. split; [lia|]. auto.
Qed.

Lemma Hbegin now l q (w : W) u : P None now l q w -> Forall (fun x => fst x = true) l ->
  P (Some u) (Nat.max now u) (map (fun x => (false, snd x)) l) q (note (XTick u) w).
Proof.
  intros (HC & Sh & HL) F. unfold P. wcbn. split; [|split].
  - apply core_begin; simpl; auto.
  - apply shaped_begin; auto.
  - intros Hs. destruct (HL Hs) as [L1]. split; wcbn.
    destruct (w_born w).
    + refine (one_begin _ _ L1). intros b wk (c & cur & n & j & E1 & (E2 & s & E3 & E4 & E5 & E6 & E7) & (E8 & E9) & _).
      exists c, cur, n, j. split; auto. split; [|split; [lia|discriminate]]. split; [snocs; auto|]. exists s. snocs. rewrite E3, <- (c_clock HC).
      split; auto. split; [lia|]. split; auto.
      assert (Ej : (now - s) / d = j). { assert ((now - s) / d < S j) by (apply Nat.div_lt_upper_bound; lia). lia. }
      assert ((now - s) / d <= (Nat.max now u - s) / d) by (apply Nat.div_le_mono; lia).
      split; lia.
    + destruct L1 as (-> & -> & L2 & L3 & L4). snocs. rewrite L2. auto 6.
Qed.

Lemma Hend t now l (w : W) : P (Some t) now l [] w -> Forall (fun x => fst x = true) l -> P None now l [] (note XEnd w).
Proof.
  intros (HC & Sh & HL) F. unfold P. wcbn. split; [|split; auto].
  - apply (@core_end _ _ _ _ _ _ _ t); auto. simpl. intros Ho. apply (c_open HC) in Ho.
    destruct (HL Ho) as [L1]. destruct (w_born w).
    + apply one_end in L1; auto. destruct L1 as (wk & c & cur & n & j & E1 & (E2 & s & E3 & E4 & E5 & E6 & E7) & _ & E8).
      rewrite E3. destruct (E8 eq_refl).
      assert (Ej : (now - s) / d = j). { assert ((now - s) / d < S j) by (apply Nat.div_lt_upper_bound; lia). lia. } lia.
    + destruct L1 as (_ & _ & -> & -> & _). auto.
  - intros Hs. destruct (HL Hs) as [L1]. split; wcbn.
    destruct (w_born w).
    + inversion L1 as [b wk H M1 M2|]; subst. apply Forall_inv in F. cbn in F. subst b. constructor.
      destruct H as (c & cur & n & j & E1 & E2 & E3 & E4). exists c, cur, n, j. split; auto. split; [apply tally_same; simpl; auto|]. auto.
    + snocs. auto.
Qed.

Lemma HS ph now l wk q (w : W) : P ph now l (QS wk :: q) w -> owned wk = true -> P ph now (l ++ [(false, wk)]) q w.
Proof.
  intros (HC & Sh & HL) _. split; [auto|split; [apply shaped_HS; auto|]].
  intros Hs. destruct (HL Hs) as [L1]. split; auto.
  destruct (w_born w); [apply one_HS; auto|]. destruct L1 as (_ & L1 & _). discriminate.
Qed.
Lemma HC ph now l q (w : W) : P ph now l (QC _ _ :: q) w -> P ph now [] q w.
Proof.
  intros (HC & Sh & HL). split; [auto|split; [eapply shaped_HC; eauto|]].
  intros Hs. destruct (HL Hs) as [L1]. exfalso.
  destruct (w_born w); [eapply one_HC; eauto|]. destruct L1 as (_ & L1 & _). discriminate.
Qed.
Lemma Hinit : P None 0 [] [] (mkW (t_new T) false false false false [] []).
Proof.
  unfold P. wcbn. split; [apply core_init|]. split; [split; constructor|].
  intros _. split; cbn; auto.
Qed.

Theorem interval_ok fuel depth h m : syss T down user fuel (start T depth) h = Fine m ->
  let tr := w_tr (m_world m) in
  always (at_intervals down d now0 cap) tr /\ answered down ans tr.
Proof.
  intros H.
  destruct (@lift_any _ _ _ _ _ _ T down user P Hclear Hcmd Hrun Hbegin Hend HS HC Hinit _ _ _ _ H) as (l & q & HP & F).
  destruct HP as (HC & Sh & HL). split; [apply (c_good HC)|apply (c_ans HC)].
Qed.
End Interval.

(** Without dropped periods their number depends on the time only. *)
Lemma periods_all {A E} d cap (l : list (tev A nat E)) : 0 < d -> (forall p t r s, l = p ++ XTick t :: r -> since p = Some s -> t <= clock p + cap * d) ->
  periods d cap l = match since l with Some s => (clock l - s) / d | None => 0 end /\ (forall s, since l = Some s -> s <= clock l).
Proof.
  intros Hd. induction l as [|e l IH] using rev_ind; intros H1; [split; [reflexivity|discriminate]|].
  destruct IH as [IH IH2].
  { intros p t r s ->. apply (H1 p t (r ++ [e])). rewrite <- app_assoc. reflexivity. }
  rewrite periods_snoc, since_snoc, clock_snoc. destruct e as [|t| | |]; auto.
  - rewrite IH. destruct (since l) as [s|]; [split; auto|]. rewrite Nat.sub_diag, Nat.div_0_l by lia. split; auto. intros s Y; injection Y; lia.
  - rewrite IH. destruct (since l) as [s|] eqn:Hs; [|split; [auto|discriminate]].
    specialize (H1 l t [] s eq_refl Hs). specialize (IH2 s eq_refl).
    assert (M : (clock l - s) / d <= (Nat.max (clock l) t - s) / d) by (apply Nat.div_le_mono; lia).
    assert (U : (Nat.max (clock l) t - s) / d <= (clock l - s) / d + cap).
    { rewrite <- Nat.div_add by lia. apply Nat.div_le_mono; lia. }
    split; [lia|]. intros s' Y; injection Y as <-. lia.
Qed.
