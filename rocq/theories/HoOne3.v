(** Proofs about [HoModel]: switch releases its inner observable, all histories. *)
From Coq Require Import NArith.
From Verif Require Import Base SubscrModel LifeModel CombModel HoModel HoSpec HoProofs HoConc HoConc2 HoOne HoOne2.
Set Implicit Arguments.

Section One3.
Variables A E : Type.
Variable down : list (ncall A E) -> bool.
Notation st := (HoModel.st A E).
Notation cmd := (HoModel.cmd A E).
Notation ev := (HoModel.ev A E).
Notation step := (HoModel.step down Switch).
Notation W := (HoOne.W down Switch).
Implicit Types (s : st) (K : list cmd).
Arguments num : simpl never.
Arguments pend : simpl never.
Arguments nic : simpl never.
Ltac nope := intros; cbn in *; repeat match goal with H : _ \/ _ |- _ => destruct H as [H|H]; [discriminate|] | H : False |- _ => destruct H end.

Definition strong (i : nat) K : Prop := In (KUnsub i) K \/ In (KUnsubFrom i) K.
Definition doomed (i : nat) K s : Prop :=
  strong i K \/ In (KAfterNext i) K \/
  (In KCheck K /\ s_torn s = false /\ ~ In KTear K /\ (s_cur s = Some i \/ In (KSubscribed i) K)).
Record D K s : Prop := {
  d_shut : shut s = true -> forall i, ope (s_inner s i) = true -> doomed i K s;
  d_head : shut s = false -> forall m K' i, K = KTell m :: K' -> ope (s_inner s i) = true -> strong i K \/ In (KAfterNext i) K;
  d_tail : shut s = false -> forall m i, In (KTell m) (tl K) -> ope (s_inner s i) = true -> strong i K /\ forallb (@quietc A E) K = true;
  d_two : shut s = false -> forall m m' K', K = KTell m :: K' -> In (KTell m') K' -> is_closing m = true;
  d_uns : forall m, In (KTell m) (tl K) -> m = Uns;
  d_onu : forall j K', K = KOnUnsub j :: K' -> forall i, ope (s_inner s i) = false;
  d_onu1 : forall j, ~ In (KOnUnsub j) (tl K);
  d_pend : pend K <> [] -> s_torn s = false /\ ~ In KTear K /\ In KCheck K /\
             (shut s = true -> (forall i, ope (s_inner s i) = false) /\ forall j, ~ In (KOnUnsub j) K)
}.

Definition mild (c : cmd) : bool := match c with KTell _ | KTear | KCreate _ _ | KOnUnsub _ => false | _ => true end.
Lemma mild_pend : forall K, forallb mild K = true -> pend K = [].
Proof. induction K as [|c K IH]; cbn; intros H; auto. apply andb_true_iff in H. destruct H as [H1 H2]. rewrite pend_cons, IH by auto. destruct c; try discriminate; auto. Qed.
Lemma tl_in : forall (x : cmd) K, In x (tl K) -> In x K.
Proof. intros x [|c K]; auto. now right. Qed.
Lemma tl_app_in : forall (x : cmd) K1 K, In x (tl (K1 ++ K)) -> In x (tl K1) \/ In x K.
Proof. intros x [|c K1] K H; [right; now apply tl_in|]. cbn in H. apply in_app_or in H. auto. Qed.

(** Commands that tell nothing. *)
Lemma D_mild : forall c K K1 s s', D (c :: K) s -> untold c = true -> c <> KTear ->
  (forall i, ope (s_inner s' i) = ope (s_inner s i)) -> shut s' = shut s -> s_torn s' = s_torn s ->
  (forall i, s_cur s = Some i -> ope (s_inner s i) = true -> s_cur s' = Some i) ->
  forallb mild K1 = true -> (quietc c = true -> forallb (@quietc A E) K1 = true) -> pend (c :: K) = pend K -> (c = KCheck -> pend K = []) ->
  (shut s = true -> c <> KCheck \/ forall i, ope (s_inner s i) = false) ->
  (forall i, ope (s_inner s i) = true -> c = KUnsub i \/ c = KUnsubFrom i \/ (c = KAfterNext i /\ shut s = true) \/ (c = KSubscribed i /\ s_cur s' <> Some i) -> strong i K1) ->
  D (K1 ++ K) s'.
Proof.
  intros c K K1 s s' H Hu Ht Ho Hs Htn Hcu Hm Hq Hp Hpc Hck Hdr.
  assert (Mi : forall x, In x K1 -> mild x = true) by (intros x Hx; rewrite forallb_forall in Hm; auto).
  assert (St : forall i, ope (s_inner s i) = true -> strong i (c :: K) -> strong i (K1 ++ K)).
  { intros i Hi [[Q|Q]|[Q|Q]].
    - destruct (Hdr i Hi (or_introl Q)) as [Z|Z]; [left|right]; apply in_or_app; auto.
    - left. apply in_or_app. auto.
    - destruct (Hdr i Hi (or_intror (or_introl Q))) as [Z|Z]; [left|right]; apply in_or_app; auto.
    - right. apply in_or_app. auto. }
  destruct H. constructor; rewrite ?Hs, ?Htn.
  - intros Hsh i Hi. rewrite Ho in Hi. destruct (d_shut0 Hsh i Hi) as [Z|[Z|(Z1 & Z2 & Z3 & Z4)]].
    + left. auto.
    + destruct Z as [Z|Z]; [|right; left; apply in_or_app; auto]. left. destruct (Hdr i Hi) as [Y|Y]; auto; [left|right]; apply in_or_app; auto.
    + destruct Z1 as [Z1|Z1]; [destruct (Hck Hsh) as [Y|Y]; [contradiction|rewrite Y in Hi; discriminate]|].
      destruct Z4 as [Z4|[Z4|Z4]].
      * right. right. repeat split; [apply in_or_app; auto|congruence| |left; auto]. intros Q. apply in_app_or in Q. destruct Q as [Q|Q]; [apply Mi in Q; discriminate|]. apply Z3. now right.
      * assert (Dec : s_cur s' = Some i \/ s_cur s' <> Some i) by (destruct (s_cur s') as [x|]; [destruct (Nat.eq_dec x i); [subst; auto|right; congruence]|right; discriminate]).
        destruct Dec as [Y|Y].
        -- right. right. repeat split; [apply in_or_app; auto|congruence| |left; auto]. intros Q. apply in_app_or in Q. destruct Q as [Q|Q]; [apply Mi in Q; discriminate|]. apply Z3. now right.
        -- left. destruct (Hdr i Hi) as [X|X]; auto; [left|right]; apply in_or_app; auto.
      * right. right. repeat split; [apply in_or_app; auto|congruence| |right; apply in_or_app; auto]. intros Q. apply in_app_or in Q. destruct Q as [Q|Q]; [apply Mi in Q; discriminate|]. apply Z3. now right.
  - intros Hsh m K' i Q Hi. rewrite Ho in Hi. left. apply St; auto. destruct K1 as [|x K1]; [|injection Q as -> _; assert (Z := Mi _ (or_introl eq_refl)); discriminate].
    apply (d_tail0 Hsh m i); auto. cbn in Q. cbn. rewrite Q. now left.
  - intros Hsh m i Q Hi. rewrite Ho in Hi. apply tl_app_in in Q. destruct Q as [Q|Q]; [apply tl_in, Mi in Q; discriminate|].
    destruct (d_tail0 Hsh m i Q Hi) as [Z1 Z2]. split; auto. cbn in Z2. apply andb_true_iff in Z2. destruct Z2 as [Z2 Z3]. rewrite forallb_app, Hq; auto.
  - intros Hsh m m' K' Q Hm'. destruct K1 as [|x K1]; [|injection Q as -> _; assert (Z := Mi _ (or_introl eq_refl)); discriminate].
    cbn in Q. assert (Z : m = Uns) by (apply d_uns0; cbn; rewrite Q; now left). subst m. reflexivity.
  - intros m Q. apply tl_app_in in Q. destruct Q as [Q|Q]; [apply tl_in, Mi in Q; discriminate|]. now apply d_uns0.
  - intros j K' Q i. destruct K1 as [|x K1]; [|injection Q as -> _; assert (Z := Mi _ (or_introl eq_refl)); discriminate].
    exfalso. apply (d_onu2 j). cbn in *. rewrite Q. now left.
  - intros j Q. apply tl_app_in in Q. destruct Q as [Q|Q]; [apply tl_in, Mi in Q; discriminate|]. now apply (d_onu2 j).
  - rewrite pend_app, (mild_pend _ Hm). cbn [app]. rewrite <- Hp. intros Q. destruct (d_pend0 Q) as (Z1 & Z2 & Z3 & Z4). split; [auto|split; [|split]].
    + intros Y. apply in_app_or in Y. destruct Y as [Y|Y]; [apply Mi in Y; discriminate|]. apply Z2. now right.
    + destruct Z3 as [Z3|Z3]; [|apply in_or_app; auto]. exfalso. apply Q. rewrite Hp. auto.
    + intros Y. split.
      * intros i. rewrite Ho. now apply Z4.
      * intros j Q1. apply in_app_or in Q1. destruct Q1 as [Q1|Q1]; [apply Mi in Q1; discriminate|]. apply (proj2 (Z4 Y) j). now right.
Qed.

Lemma D_none : forall c K K1 s s', D (c :: K) s -> (forall i, ope (s_inner s' i) = false) -> shut s' = shut s -> s_torn s' = s_torn s ->
  (forall m, In (KTell m) K1 -> m = Uns) -> (forall m K', K1 <> KTell m :: K') -> (forall j, ~ In (KOnUnsub j) (tl K1)) -> pend K1 = [] -> pend (c :: K) = pend K ->
  (pend K <> [] -> ~ In KTear K1 /\ In KCheck K /\ (shut s = true -> forall j, ~ In (KOnUnsub j) K1)) -> D (K1 ++ K) s'.
Proof.
  intros c K K1 s s' H Ho Hs Ht HK1 Hh Hou Hp1 Hp Hpe. destruct H. constructor; rewrite ?Hs, ?Ht; auto; try (intros; rewrite Ho in *; discriminate).
  - intros Hsh m m' K' Q Hm'. destruct K1 as [|x K1]; [|injection Q as -> _; now destruct (Hh m K1)].
    cbn in Q. assert (Z : m = Uns) by (apply d_uns0; cbn; rewrite Q; now left). subst m. reflexivity.
  - intros m Q. apply tl_app_in in Q. destruct Q as [Q|Q]; [apply tl_in in Q; auto|]. now apply d_uns0.
  - intros j Q. apply tl_app_in in Q. destruct Q as [Q|Q]; [now apply (Hou j)|]. now apply (d_onu2 j).
  - rewrite pend_app, Hp1. cbn [app]. intros Q. destruct (Hpe Q) as (Z1 & Z2 & Z3). rewrite <- Hp in Q. destruct (d_pend0 Q) as (Y1 & Y2 & Y3 & Y4).
    split; [auto|split; [|split]].
    + intros Y. apply in_app_or in Y. destruct Y as [Y|Y]; [contradiction|]. apply Y2. now right.
    + apply in_or_app. auto.
    + intros Y. split; auto. intros j Q1. apply in_app_or in Q1. destruct Q1 as [Q1|Q1]; [now apply (Z3 Y j)|]. apply (proj2 (Y4 Y) j). now right.
Qed.

Lemma D_call : forall c K K1 s s' i, W (c :: K) s -> D (c :: K) s -> quietc c = false -> ope (s_inner s i) = true ->
  (forall j, ope (s_inner s' j) = ope (s_inner s j)) -> shut s' = shut s -> strong i (K1 ++ K) \/ In (KAfterNext i) (K1 ++ K) ->
  (forall m, ~ In (KTell m) (tl K1)) -> (forall j, ~ In (KOnUnsub j) K1) -> pend K1 = [] -> D (K1 ++ K) s'.
Proof.
  intros c K K1 s s' i H HD Hc Hi Ho Hs Hd Ht Hu Hp.
  assert (NT : shut s = false -> forall m, ~ In (KTell m) K).
  { intros Es m Q. destruct (d_tail HD Es _ _ Q Hi) as [_ Z]. cbn in Z. rewrite Hc in Z. discriminate. }
  assert (Only : forall j, ope (s_inner s' j) = true -> j = i) by (intros j Hj; rewrite Ho in Hj; now apply (w_one H)).
  assert (NTt : shut s = false -> forall m, ~ In (KTell m) (tl (K1 ++ K))) by (intros Es m Q; apply tl_app_in in Q; destruct Q as [Q|Q]; [now apply (Ht m)|now apply (NT Es m)]).
  constructor; rewrite ?Hs.
  - intros Es j Hj. rewrite (Only j Hj). unfold doomed. tauto.
  - intros Es m K' j Q Hj. rewrite (Only j Hj). auto.
  - intros Es m j Q _. destruct (NTt Es m Q).
  - intros Es m m' K' Q Q'. destruct (NTt Es m'). rewrite Q. auto.
  - intros m Q. apply tl_app_in in Q. destruct Q as [Q|Q]; [now destruct (Ht m)|now apply (d_uns HD)].
  - intros j K' Q. exfalso. assert (Z : In (KOnUnsub j) (K1 ++ K)) by (rewrite Q; now left). apply in_app_or in Z. destruct Z as [Z|Z]; [now apply (Hu j)|now apply (d_onu1 HD j)].
  - intros j Q. apply tl_app_in in Q. destruct Q as [Q|Q]; [apply tl_in in Q; now apply (Hu j)|now apply (d_onu1 HD j)].
  - rewrite pend_app, Hp. cbn [app]. intros Q. exfalso. destruct (pend K) as [|x l] eqn:Qp; [now destruct Q|].
    assert (Hin : In x (pend (c :: K))) by (rewrite pend_cons; apply in_or_app; right; rewrite Qp; now left).
    destruct (w_create H x i Hin Hi) as [_ [K' Z]]. injection Z as -> _. discriminate.
Qed.

Lemma before_in : forall i K, before i K = true -> In (KUnsub i) K.
Proof.
  induction K as [|c K IH]; cbn; [discriminate|]. intros Q. destruct c; auto; try discriminate.
  - destruct (Nat.eqb_spec i0 i); [discriminate|auto].
  - destruct (Nat.eqb_spec i0 i) as [->|]; auto.
Qed.
Lemma ope_completed : forall v, ope (set_completed v) = ope v.
Proof. intros []; auto. Qed.

Lemma step_D : forall c K s s' K1, W (c :: K) s -> D (c :: K) s -> step c s = Some (s', K1) -> D (K1 ++ K) s'.
Proof.
  intros c K s s' K1 H HD R. destruct (W_tl H) as (T1 & T2 & T3 & T4).
  assert (HKp : pend K <> [] -> forall j, ope (s_inner s j) = true -> exists K', c :: K = KUnsubFrom j :: K').
  { intros Q j Hj. destruct (pend K) as [|x l] eqn:Qp; [now destruct Q|].
    assert (Hin : In x (pend (c :: K))) by (rewrite pend_cons; apply in_or_app; right; rewrite Qp; now left).
    apply (w_create H x j Hin Hj). }
  assert (Ope : forall i, i_sub (s_inner s i) = true -> i_closed (s_inner s i) = false -> ope (s_inner s i) = true) by (intros i Q1 Q2; unfold ope; now rewrite Q1, Q2).
  assert (Shd : forall i, c = KUnsub i \/ c = KUnsubFrom i -> do_unsub i s = Some (s', K1) -> D (K1 ++ K) s').
  { intros i Hc Q. unfold do_unsub in Q. destruct (i_closed (s_inner s i)) eqn:Ec.
    - injection Q as <- <-. apply (@D_mild c K [] s s); auto; try (destruct Hc; subst c; auto; discriminate).
      + intros _. left. destruct Hc; subst c; discriminate.
      + intros j Hj [Z|[Z|[[Z _]|[Z _]]]]; destruct Hc; subst c; try discriminate; injection Z as <-; unfold ope in Hj; rewrite Ec, andb_false_r in Hj; discriminate.
    - assert (Hi : ope (s_inner s i) = true) by (apply Ope; auto; destruct Hc; subst c; auto).
      destruct (minus_one (s_nu s)) as [nu|]; [|discriminate]. destruct (if i_completed _ then _ else _) as [nc|]; [|discriminate]. injection Q as <- <-.
      set (fire := negb _ && _). set (d := if can_downstream_unsubscribe s then _ else _). apply (@D_none c K _ s); auto.
      + intros j. cbn. destruct (Nat.eq_dec j i) as [->|Ne].
        * rewrite Nat.eqb_refl. unfold ope. cbn. now rewrite andb_false_r.
        * replace (j =? i) with false by (symmetry; now apply Nat.eqb_neq). destruct (ope (s_inner s j)) eqn:Oj; auto. destruct Ne. apply (w_one H); auto.
      + intros m Z. destruct fire; nope.
      + intros m K'. destruct fire; discriminate.
      + intros j. destruct fire; intros [].
      + destruct fire; auto.
      + destruct Hc; subst c; auto.
      + intros Z. assert (Zp : pend (c :: K) <> []) by (destruct Hc; subst c; auto). destruct (d_pend HD Zp) as (Y1 & Y2 & Y3 & Y4). split; [|split].
        * intros Z'. destruct fire; nope.
        * destruct Y3 as [Y3|Y3]; auto. destruct Hc; subst c; discriminate.
        * intros Y. destruct (Y4 Y) as [Y5 _]. rewrite Y5 in Hi. discriminate. }
  destruct c as [m| | | |i l|i m|i|i|i|i|i| |i| |i]; cbn in T4; try contradiction.
  - (* KTell *) destruct (@tell_shut _ _ down Switch I _ _ _ _ _ H R) as (-> & X1 & X2). cbn [app].
    assert (Hin : s_inner s' = s_inner s /\ s_torn s' = s_torn s /\ s_cur s' = s_cur s) by (cbn in R; destruct (t_shut (s_told s)); injection R as <-; auto).
    destruct Hin as (I1 & I2 & I3). constructor; rewrite ?I1, ?I2.
    + intros Hs i Hi. destruct (shut s) eqn:Es.
      * destruct (d_shut HD Es i Hi) as [[[Z|Z]|[Z|Z]]|[[Z|Z]|(Z1 & Z2 & Z3 & Z4)]]; try discriminate; unfold doomed, strong; auto.
        right. right. rewrite I2, I3. destruct Z1 as [Z1|Z1]; [discriminate|]. repeat split; auto. { intros Q. apply Z3. now right. } destruct Z4 as [Z4|[Z4|Z4]]; auto. discriminate.
      * destruct (d_head HD Es _ eq_refl Hi) as [[[Z|Z]|[Z|Z]]|[Z|Z]]; try discriminate; unfold doomed, strong; auto.
    + intros Hs m' K' i -> Hi. exfalso. assert (Es : shut s = false) by (destruct (shut s); auto; rewrite X1 in Hs; auto).
      assert (Z := d_two HD Es _ eq_refl (or_introl eq_refl)). rewrite X2 in Hs; auto; discriminate.
    + intros Hs m' i Q Hi. exfalso. assert (Es : shut s = false) by (destruct (shut s); auto; rewrite X1 in Hs; auto).
      assert (Z := d_two HD Es _ eq_refl (tl_in _ _ Q)). rewrite X2 in Hs; auto; discriminate.
    + intros Hs m1 m2 K' -> Q. assert (Z : m1 = Uns) by (apply (d_uns HD); now left). now subst m1.
    + intros m' Q. apply (d_uns HD). now apply tl_in.
    + intros j K' -> i. destruct (d_onu1 HD j). now left.
    + intros j Q. apply (d_onu1 HD j). now apply tl_in.
    + intros Q. destruct (d_pend HD Q) as (Y1 & Y2 & Y3 & Y4). split; [auto|split; [|split]].
      * intros Z. apply Y2. now right.
      * destruct Y3; auto. discriminate.
      * intros _. assert (Es : shut s = true) by (apply (w_quiet H m); [now left|auto]). destruct (Y4 Es) as [Z1 Z2]. split; auto. intros j Z. apply (Z2 j). now right.
  - (* KTear *)
    assert (Z : K1 = [] /\ s_inner s' = s_inner s /\ s_cur s' = s_cur s /\ shut s' = shut s) by (cbn in R; destruct (s_torn s); injection R as <- <-; auto).
    destruct Z as (-> & I1 & I3 & I4). cbn [app]. constructor; rewrite ?I1, ?I4.
    + intros Hs i Hi. destruct (d_shut HD Hs i Hi) as [[[Z|Z]|[Z|Z]]|[[Z|Z]|(Z1 & Z2 & Z3 & Z4)]]; try discriminate; unfold doomed, strong; auto. destruct Z3. now left.
    + intros Hs m' K' i -> Hi. destruct (d_tail HD Hs _ _ (or_introl eq_refl) Hi) as [[[Z|Z]|[Z|Z]] _]; try discriminate; unfold strong; auto.
    + intros Hs m' i Q Hi. assert (Q' := tl_in _ _ Q). destruct (d_tail HD Hs _ _ Q' Hi) as [[[Z|Z]|[Z|Z]] Y]; try discriminate; unfold strong; auto.
    + intros Hs m1 m2 K' -> Q. assert (Z : m1 = Uns) by (apply (d_uns HD); now left). now subst m1.
    + intros m' Q. apply (d_uns HD). now apply tl_in.
    + intros j K' -> i. destruct (d_onu1 HD j). now left.
    + intros j Q. apply (d_onu1 HD j). now apply tl_in.
    + intros Q. destruct (d_pend HD Q) as (_ & Y2 & _). destruct Y2. now left.
  - (* KCreate *) cbn [HoModel.step] in R. injection R as <- <-.
    set (K1 := map (KCall i) l ++ [KSubscribed i]). set (s' := log _ _).
    assert (Hi0 : In i (pend (KCreate i l :: K))) by (rewrite pend_cons; cbn; auto).
    assert (Hpe : pend K = []) by (pose proof (w_pend H) as P; rewrite pend_cons in P; cbn in P; destruct (pend K); auto; cbn in P; lia).
    assert (Hne : pend (KCreate i l :: K) <> []) by (intros Q; rewrite Q in Hi0; destruct Hi0).
    destruct (d_pend HD Hne) as (Y1 & Y2 & Y3 & Y4). destruct Y3 as [Y3|Y3]; [discriminate|].
    assert (No : forall j, ope (s_inner s j) = false).
    { intros j. destruct (ope (s_inner s j)) eqn:Q; auto. destruct (w_create H i j Hi0 Q) as [_ [K' Z]]. discriminate. }
    assert (Only : forall j, ope (s_inner s' j) = true -> j = i).
    { intros j. cbn. destruct (Nat.eqb_spec j i); auto. rewrite No. discriminate. }
    assert (NT : shut s = false -> forall m, ~ In (KTell m) K) by (intros Es m Q; rewrite (w_quiet H m (or_intror Q) Hne) in Es; discriminate).
    assert (NK : forall c, In c K1 -> (exists m, c = KCall i m) \/ c = KSubscribed i) by (intros c; apply in_calls).
    assert (NTt : shut s = false -> forall m, ~ In (KTell m) (K1 ++ K)) by (intros Es m Q; apply in_app_or in Q; destruct Q as [Q|Q]; [apply NK in Q; destruct Q as [[x Q]|Q]; discriminate|now apply (NT Es m)]).
    assert (NU : forall j, ~ In (KOnUnsub j) (K1 ++ K)) by (intros j Q; apply in_app_or in Q; destruct Q as [Q|Q]; [apply NK in Q; destruct Q as [[x Q]|Q]; discriminate|now apply (d_onu1 HD j)]).
    change (shut s') with (shut s) in *. constructor; change (shut s') with (shut s).
    + intros Es j Hj. rewrite (Only j Hj). right. right. repeat split; auto.
      * apply in_or_app. auto.
      * intros Q. apply in_app_or in Q. destruct Q as [Q|Q]; [apply NK in Q; destruct Q as [[x Q]|Q]; discriminate|]. apply Y2. now right.
      * right. apply in_or_app. left. apply in_or_app. right. now left.
    + intros Es m K' j Q _. destruct (NTt Es m). rewrite Q. now left.
    + intros Es m j Q _. destruct (NTt Es m). now apply tl_in.
    + intros Es m m' K' Q _. destruct (NTt Es m). rewrite Q. now left.
    + intros m Q. apply tl_app_in in Q. destruct Q as [Q|Q]; [apply tl_in, NK in Q; destruct Q as [[x Q]|Q]; discriminate|now apply (d_uns HD)].
    + intros j K' Q. destruct (NU j). rewrite Q. now left.
    + intros j Q. destruct (NU j). now apply tl_in.
    + rewrite pend_app, Hpe, app_nil_r. unfold K1. intros Q. destruct Q. apply mild_pend. rewrite forallb_app. cbn. rewrite andb_true_r. clear. induction l; auto.
  - (* KCall *) cbn [HoModel.step] in R. destruct (i_closed (s_inner s i) || negb (i_sub (s_inner s i))) eqn:Ec.
    + injection R as <- <-. apply (@D_mild (KCall i m) K [] s s); auto; try discriminate. { intros _. left. discriminate. }
      intros j Hj [Z|[Z|[[Z _]|[Z _]]]]; discriminate.
    + apply orb_false_iff in Ec. destruct Ec as [Ec1 Ec2]. apply negb_false_iff in Ec2. assert (Hi := Ope i Ec2 Ec1).
      destruct m as [a|e| |].
      * injection R as <- <-. apply (@D_call (KCall i (Nxt a)) K _ s _ i); auto.
        -- right. apply in_or_app. left. cbn. auto.
        -- intros m Q. nope.
        -- intros j Q. nope.
      * destruct (set_error _); [|discriminate]. injection R as <- <-. apply (@D_call (KCall i (Err e)) K _ s _ i); auto.
        -- left. left. apply in_or_app. left. cbn. auto.
        -- intros m Q. nope.
        -- intros j Q. nope.
      * injection R as <- <-. apply (@D_call (KCall i Cmp) K _ s _ i); auto.
        -- intros j. cbn. destruct (Nat.eqb_spec j i) as [->|]; auto using ope_completed.
        -- left. left. apply in_or_app. left. cbn. auto.
        -- intros m Q. nope.
        -- intros j Q. nope.
      * injection R as <- <-. apply (@D_call (KCall i Uns) K _ s _ i); auto.
        -- left. left. apply in_or_app. left. cbn. auto.
        -- intros j Q. nope.
  - (* KAfterNext *) cbn [HoModel.step] in R. destruct (t_shut (s_told s)) eqn:Es; injection R as <- <-.
    + apply (@D_mild (KAfterNext i) K [KUnsub i] s); auto; try discriminate. { intros _. left. discriminate. }
      intros j Hj [Z|[Z|[[Z _]|[Z _]]]]; try discriminate. injection Z as <-. left. now left.
    + apply (@D_mild (KAfterNext i) K [] s); auto; try discriminate. { intros _. left. discriminate. }
      intros j Hj [Z|[Z|[[Z Z']|[Z _]]]]; try discriminate. unfold shut in Z'. congruence.
  - (* KInnerCompleted *) cbn [HoModel.step] in R. destruct (s_nc s) as [|nc] eqn:En; [discriminate|].
    assert (Hc := w_icopen H i (or_introl eq_refl)). assert (Hi := Ope i (proj1 T4) Hc).
    assert (Hu : In (KUnsub i) K).
    { destruct (w_comp H i (proj2 T4)) as [Z|Z]; [congruence|]. apply before_in. exact Z. }
    destruct (can_downstream_complete _); [destruct (set_complete _); [|discriminate]|]; injection R as <- <-; apply (@D_call (KInnerCompleted i) K _ s _ i); auto.
    + left. left. apply in_or_app. auto.
    + intros j Q. nope.
    + left. now left.
  - (* KUnsub *) eapply Shd; eauto.
  - (* KUnsubFrom *) cbn [HoModel.step] in R. destruct (existsb (Nat.eqb i) (s_busy s)) eqn:Eb; [|eapply Shd; eauto].
    assert (Q := w_from H i (or_introl eq_refl)). rewrite Q in Eb. discriminate.
  - (* KOnUnsub *) cbn [HoModel.step] in R. injection R as <- <-. assert (No := d_onu HD eq_refl).
    destruct (can_downstream_unsubscribe s) eqn:Ecan.
    + apply (@D_none (KOnUnsub i) K _ s); auto; try discriminate.
      * intros m [Q|[Q|[]]]; [discriminate|]. now injection Q.
      * intros j [Q|[]]. discriminate.
      * intros Q. exfalso. destruct (d_pend HD Q) as (Y1 & Y2 & Y3 & Y4).
        assert (Es : shut s = true).
        { unfold can_downstream_unsubscribe in Ecan.
          assert (Hq : s_nu s =? 0 = false) by (apply Nat.eqb_neq; rewrite (w_nu H); change (pend (KOnUnsub i :: K)) with (pend K); destruct (pend K); [now destruct Q|cbn; lia]).
          rewrite Hq, andb_false_r in Ecan. cbn in Ecan. apply orb_true_iff in Ecan.
          assert (Hx : shut s = true \/ closing_in (KOnUnsub i :: K) = true) by (destruct Ecan; [now apply (w_uperr H)|now apply (w_down H)]).
          destruct Hx as [Z|Z]; auto. destruct (closing_tell _ Z) as [m Hm]. now apply (w_quiet H m). }
        destruct (Y4 Es) as [_ Z]. apply (Z i). now left.
    + apply (@D_none (KOnUnsub i) K [] s); auto; try discriminate; try (intros; intros []; fail).
      * intros m [].
      * intros Q. destruct (d_pend HD Q) as (Y1 & Y2 & [Y3|Y3] & Y4); [discriminate|]. split; [intros []|]. split; auto.
  - (* KSubscribed *) cbn [HoModel.step] in R. destruct (i_closed (s_inner s i)) eqn:Ec; injection R as <- <-.
    + apply (@D_mild (KSubscribed i) K [] s); auto; try discriminate. { intros _. left. discriminate. }
      intros j Hj [Z|[Z|[[Z _]|[Z _]]]]; try discriminate. injection Z as <-. unfold ope in Hj. rewrite Ec, andb_false_r in Hj. discriminate.
    + assert (Hi := Ope i T4 Ec). apply (@D_mild (KSubscribed i) K [] s); auto; try discriminate.
      * intros j _ Hj. cbn. f_equal. now apply (w_one H).
      * intros _. left. discriminate.
      * intros j Hj [Z|[Z|[[Z _]|[Z Z']]]]; try discriminate. cbn in Z'. injection Z as <-. congruence.
  - (* KCheck *) assert (Hn : K = []) by (pose proof (w_check H) as Q; cbn in Q; destruct K; auto; discriminate). subst K. rewrite app_nil_r.
    cbn [HoModel.step] in R. change (t_shut (s_told s)) with (shut s) in R. destruct (shut s) eqn:Es; cbn [andb] in R.
    + destruct (s_torn s) eqn:Et; cbn [negb] in R.
      * injection R as <- <-. assert (No : forall i, ope (s_inner s i) = false).
        { intros i. destruct (ope (s_inner s i)) eqn:Q; auto. destruct (d_shut HD Es i Q) as [[Z|Z]|[Z|(_ & Z & _)]]; try (destruct Z as [Z|[]]; discriminate). congruence. }
        apply (@D_none KCheck [] [] s s); auto; try discriminate; try (intros; intros []; fail).
        -- intros m [].
        -- intros Q. now destruct Q.
      * injection R as <- <-. assert (On : forall i, ope (s_inner s i) = true -> s_cur s = Some i).
        { intros i Q. destruct (d_shut HD Es i Q) as [[Z|Z]|[Z|(_ & _ & _ & Z)]]; try (destruct Z as [Z|[]]; discriminate). destruct Z as [Z|Z]; auto. destruct Z as [Z|[]]; discriminate. }
        set (K' := KTear :: KTell Uns :: _). assert (HK : forall i, ope (s_inner s i) = true -> In (KUnsubFrom i) K') by (intros i Hi; unfold K'; rewrite (On i Hi); cbn; auto).
        constructor; change (shut (with_cur s None)) with (shut s); try congruence.
        -- intros _ i Hi. left. right. auto.
        -- intros m [Q|Q]; [now injection Q|]. cbn in Q. destruct (s_cur s); nope.
        -- intros j K'' Q. discriminate.
        -- intros j [Q|Q]; [discriminate|]. destruct (s_cur s); nope.
        -- unfold K'. intros Q. destruct Q. destruct (s_cur s); reflexivity.
    + injection R as <- <-. constructor; try congruence; try discriminate; try (intros; intros []; fail); intros; nope.
      now destruct H0.
  - (* KFree *) cbn [HoModel.step] in R. injection R as <- <-. apply (@D_mild (KFree i) K [] s); auto; try discriminate. { intros _. left. discriminate. }
    intros j Hj [Z|[Z|[[Z _]|[Z _]]]]; discriminate.
Qed.

Lemma D_nil_none : forall s, D [] s -> shut s = true -> forall i, ope (s_inner s i) = false.
Proof.
  intros s HD Es i. destruct (ope (s_inner s i)) eqn:Q; auto. destruct (d_shut HD Es i Q) as [[[]|[]]|[[]|([] & _)]].
Qed.
Lemma D_nil : forall s s', D [] s -> s_inner s' = s_inner s -> shut s' = shut s -> D [] s'.
Proof.
  intros s s' HD H1 H2. constructor; rewrite ?H1, ?H2; try discriminate; try (intros; cbn in *; contradiction).
  - intros Es i Hi. rewrite (D_nil_none HD Es) in Hi. discriminate.
  - intros j [].
Qed.
(** The end, by way of the outer observable or the unsubscription. *)
Lemma D_end : forall s s' K0, W [] s -> D [] s -> s_inner s' = s_inner s -> shut s' = shut s ->
  K0 = [] \/ (exists m, K0 = [KTell m] /\ is_closing m = true) ->
  D (K0 ++ [KTear; KTell Uns] ++ match s_cur s with Some i => [KUnsubFrom i] | None => [] end) s'.
Proof.
  intros s s' K0 H HD H1 H2 HK0. set (K := K0 ++ _).
  assert (St : forall i, ope (s_inner s i) = true -> strong i K).
  { intros i Hi. right. destruct (w_cur H i Hi) as [Z|[[]|[]]]. unfold K. rewrite Z. apply in_or_app. right. cbn. auto. }
  assert (Qu : forallb (@quietc A E) K = true) by (unfold K; rewrite forallb_app; destruct HK0 as [->|(m & -> & _)]; cbn; destruct (s_cur s); auto).
  constructor; rewrite ?H1, ?H2.
  - intros Es i Hi. left. auto.
  - intros Es m K' i _ Hi. left. auto.
  - intros Es m i _ Hi. auto.
  - intros Es m m' K' Q Q'. unfold K in Q. destruct HK0 as [->|(m0 & -> & Z)]; [discriminate|]. injection Q as <- _. exact Z.
  - intros m Q. unfold K in Q. destruct HK0 as [->|(m0 & -> & Z)]; cbn in Q; destruct (s_cur s); repeat (destruct Q as [Q|Q]; [try discriminate; try (injection Q as <-; reflexivity)|]); destruct Q.
  - intros j K' Q. unfold K in Q. destruct HK0 as [->|(m0 & -> & Z)]; discriminate.
  - intros j Q. unfold K in Q. destruct HK0 as [->|(m0 & -> & Z)]; cbn in Q; destruct (s_cur s); repeat (destruct Q as [Q|Q]; [try discriminate|]); destruct Q.
  - intros Q. destruct Q. unfold K. destruct HK0 as [->|(m0 & -> & Z)]; destruct (s_cur s); reflexivity.
Qed.

Lemma perform_D : forall a s s' K, W [] s -> D [] s -> perform Switch a s = Some (s', K) -> D K s'.
Proof.
  intros a s s' K H HD R. destruct a as [l|e| | |i m]; cbn [perform] in R; change (is_torn Switch s) with (s_torn s) in R.
  - destruct (s_torn s) eqn:Et; injection R as <- <-; [auto|].
    set (K := _ ++ _). set (s' := with_cur _ None).
    assert (HK : forall c, In c K -> (exists j, c = KUnsubFrom j) \/ c = KCreate (s_arrived s) l \/ c = KCheck) by (intros c Q; unfold K in Q; destruct (s_cur s); cbn in Q; intuition eauto).
    assert (Q1 : forall m, ~ In (KTell m) K) by (intros m Q; apply HK in Q; destruct Q as [[j Q]|[Q|Q]]; discriminate).
    assert (Q2 : forall j, ~ In (KOnUnsub j) K) by (intros m Q; apply HK in Q; destruct Q as [[j Q]|[Q|Q]]; discriminate).
    assert (Q3 : ~ In KTear K) by (intros Q; apply HK in Q; destruct Q as [[j Q]|[Q|Q]]; discriminate).
    constructor; change (shut s') with (shut s); change (s_inner s') with (s_inner s); change (s_torn s') with (s_torn s).
    + intros Es i Hi. rewrite (D_nil_none HD Es) in Hi. discriminate.
    + intros _ m K' i Q. destruct (Q1 m). rewrite Q. now left.
    + intros _ m i Q. destruct (Q1 m). now apply tl_in.
    + intros _ m m' K' Q. destruct (Q1 m). rewrite Q. now left.
    + intros m Q. destruct (Q1 m). now apply tl_in.
    + intros j K' Q. destruct (Q2 j). rewrite Q. now left.
    + intros j Q. destruct (Q2 j). now apply tl_in.
    + intros _. split; [auto|split; [auto|split]]; [unfold K; destruct (s_cur s); cbn; auto|]. intros Es. split; [now apply D_nil_none|auto].
  - destruct (s_torn s); [injection R as <- <-; auto|]. destruct (set_error _) as [u|]; [|discriminate]. injection R as <- <-.
    apply (@D_end s _ [KTell (Err e)]); auto. right. exists (Err e). auto.
  - destruct (s_torn s); [injection R as <- <-; auto|]. destruct (set_complete _) as [u|]; [|discriminate]. destruct (set_unsubscribe u) as [u'|]; [|discriminate].
    destruct (can_downstream_complete _); injection R as <- <-; [|revert HD; intros HD; now apply (@D_nil s)].
    apply (@D_end s _ [KTell Cmp]); auto. right. exists Cmp. auto.
  - destruct (s_torn s) eqn:Et; [injection R as <- <-; auto|]. unfold unsubscribe in R. change (is_torn Switch (log s (TUp Uns))) with (s_torn s) in R. rewrite Et in R.
    injection R as <- <-. apply (@D_end s _ []); auto.
  - destruct (_ || _); [injection R as <- <-; auto|]. injection R as <- <-.
    constructor; try discriminate; try (intros; nope; fail).
    + intros Es j Hj. change (shut s = true) in Es. cbn in Hj. rewrite (D_nil_none HD Es) in Hj. discriminate.
    + intros j Q. nope.
    + intros Q. now destruct Q.
Qed.

Lemma switch_released : forall fuel h s, flatten down Switch fuel h init = Fine s -> released down (s_tr s).
Proof.
  intros fuel h s R Ho i Hi. assert (Q : W [] s /\ D [] s).
  { eapply (@flatten_inv A E down Switch (fun _ _ => True) (fun K s => W K s /\ D K s)); eauto.
    - intros c K s0 s1 K1 [H1 H2] Hs. split; [eapply step_W; eauto; exact I|eapply step_D; eauto].
    - intros a s0 s1 K1 [H1 H2] _ Hp. split; [eapply perform_W; eauto; exact I|eapply perform_D; eauto].
    - split; [now apply init_W|]. constructor; try discriminate; try (intros; nope; fail); [intros j []|]. intros Q. now destruct Q. }
  destruct Q as [H HD]. assert (M := w_mir H). rewrite <- (m_sub M) in Hi. rewrite <- (m_end M).
  destruct (i_closed (s_inner s i)) eqn:Q; auto. exfalso.
  assert (Hs : shut s = true) by (destruct (shut s) eqn:Z; auto; destruct Ho; now apply (m_shut M)).
  assert (Z := D_nil_none HD Hs i). unfold ope in Z. rewrite Hi, Q in Z. discriminate.
Qed.
End One3.
