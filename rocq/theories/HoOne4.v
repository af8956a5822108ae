(** Proofs about [HoModel]: switch and exhaust with a destination that does not close itself:
    nothing panics, nothing is subscribed to after the end, and everything is released. *)
From Coq Require Import NArith.
From Verif Require Import Base SubscrModel LifeModel CombModel HoModel HoSpec LifeProofs HoProofs HoConc HoConc2 HoOne HoOne2.
Set Implicit Arguments.

Section One4.
Variables A E : Type.
Variable down : list (ncall A E) -> bool.
Hypothesis Hd : forall l, down l = false.
Variable k : kind.
Hypothesis Hk : match k with Concurrent _ => False | _ => True end.
Notation st := (HoModel.st A E).
Notation cmd := (HoModel.cmd A E).
Notation ev := (HoModel.ev A E).
Notation step := (HoModel.step down k).
Notation W := (HoOne.W down k).
Implicit Types (s : st) (K : list cmd).
Arguments num : simpl never.
Arguments pend : simpl never.
Arguments nic : simpl never.

(** The next command about [i] unsubscribes it. *)
Fixpoint soon (i : nat) K : bool :=
  match K with
  | [] => false
  | KUnsub j :: K' => if j =? i then true else soon i K'
  | KCall j _ :: K' | KAfterNext j :: K' => if j =? i then false else soon i K'
  | _ :: K' => soon i K'
  end.
Definition notaf (c : cmd) : bool := match c with KAfterNext _ => false | _ => true end.
Definition noaf K : bool := forallb notaf K.
Definition atop K : bool :=
  match K with
  | KTell (Nxt _) :: KAfterNext _ :: K' | KAfterNext _ :: K' => noaf K'
  | _ => noaf K
  end.
Definition hush (c : cmd) : bool := match c with KCall _ _ | KAfterNext _ => false | _ => true end.
Lemma soon_app : forall i K1 K, forallb hush K1 = true -> soon i K = true -> soon i (K1 ++ K) = true.
Proof.
  intros i. induction K1 as [|c K1 IH]; cbn [app forallb]; intros K H1 H2; auto. apply andb_true_iff in H1. destruct H1 as [H1 H3].
  destruct c; try discriminate; cbn [soon]; auto. destruct (_ =? _); auto.
Qed.
Lemma soon_tl : forall i c K, soon i (c :: K) = true -> c = KUnsub i \/ soon i K = true.
Proof. intros i c K H. destruct c; cbn in H; auto; destruct (i0 =? i) eqn:Q; auto; try discriminate. apply Nat.eqb_eq in Q. subst. auto. Qed.
Lemma before_soon : forall i K, noaf K = true -> before i K = true -> soon i K = true.
Proof.
  intros i. induction K as [|c K IH]; cbn; intros H1 H2; auto. apply andb_true_iff in H1. destruct H1 as [H1 H3].
  destruct c; try discriminate; auto; destruct (_ =? _); auto.
Qed.
Lemma noaf_atop : forall K, noaf K = true -> atop K = true.
Proof. intros [|c K] H; auto. destruct c as [[]| | | | | | | | | | | | | |]; auto; try discriminate. cbn in *. destruct K as [|[]]; auto. discriminate. Qed.
Lemma noaf_app : forall K1 K, noaf K1 = true -> noaf K = true -> noaf (K1 ++ K) = true.
Proof. intros K1 K H1 H2. unfold noaf. rewrite forallb_app. now apply andb_true_iff. Qed.
Lemma atop_tl : forall c K, atop (c :: K) = true -> (forall a, c <> KTell (Nxt a)) -> noaf K = true.
Proof. intros c K H Hc. destruct c as [[a| | |]| | | | | | | | | | | | | |]; auto. now destruct (Hc a). Qed.
Lemma atop_tell : forall a K, atop (KTell (Nxt a) :: K) = true -> atop K = true.
Proof. intros a [|c K]; auto. intros H. destruct c; try (cbn in H |- *; auto; fail); apply noaf_atop; exact H. Qed.
Lemma noaf_in : forall i K, noaf K = true -> ~ In (KAfterNext i) K.
Proof. intros i K H Q. unfold noaf in H. rewrite forallb_forall in H. specialize (H _ Q). discriminate. Qed.

(** The end is near. *)
Definition T K s : Prop :=
  s_torn s = true \/ In KTear K \/
  (is_closed (s_down s) = true /\ exists j K', K = KOnUnsub j :: K') \/
  (is_closed (s_down s) = true /\ is_unsubscribed (s_down s) = false /\ exists i, ope (s_inner s i) = true).
Definition bad K s : Prop :=
  shut s = true \/ is_closed (s_down s) = true \/ is_errored (s_up s) = true \/ closing_in K = true.

Record G K s : Prop := {
  g_tight : is_closed (s_down s) = true -> forall i, ope (s_inner s i) = true -> soon i K = true;
  g_T : bad K s -> T K s;
  g_pend : pend K <> [] -> ~ bad K s;
  g_atop : atop K = true;
  g_af : forall i, In (KAfterNext i) K -> ope (s_inner s i) = true;
  g_ou : forall i, ope (s_inner s i) = true -> i_ou (s_inner s i) = true;
  g_onu : forall j, ~ In (KOnUnsub j) (tl K);
  g_onu2 : forall j K', K = KOnUnsub j :: K' -> forall i, ope (s_inner s i) = false;
  g_rel : shut s = true \/ closing_in K = true -> forall i, ope (s_inner s i) = true -> soon i K = true \/ In (KUnsubFrom i) K;
  g_late : always (none_late down) (s_tr s)
}.

Lemma closing_tl : forall c K, closing_in K = true -> closing_in (c :: K) = true.
Proof. intros c K H. unfold closing_in in *. cbn [existsb]. rewrite H. apply orb_true_r. Qed.
Lemma bad_app : forall c K K1 s, closing_in K1 = false -> bad (K1 ++ K) s -> bad (c :: K) s.
Proof.
  intros c K K1 s H [Q|[Q|[Q|Q]]]; unfold bad; auto. rewrite closing_app, H in Q. cbn in Q. right. right. right. now apply closing_tl.
Qed.
Lemma late_same : forall s e, always (none_late down) (s_tr s) -> (forall i, e <> TSub i) -> always (none_late down) (s_tr (log s e)).
Proof. intros s e H He. cbn. apply always_snoc; auto. destruct e; try exact I. now destruct (He i). Qed.

(** Commands that do not bring the end about. *)
Lemma G_std : forall c K K1 s s', G (c :: K) s -> 
  (forall i, ope (s_inner s' i) = ope (s_inner s i)) -> (forall i, i_ou (s_inner s' i) = i_ou (s_inner s i)) ->
  shut s' = shut s -> s_down s' = s_down s -> s_up s' = s_up s -> (s_torn s = true -> s_torn s' = true) -> always (none_late down) (s_tr s') ->
  (forall a, c <> KTell (Nxt a)) -> c <> KTear \/ s_torn s' = true -> (forall i, c = KUnsub i \/ c = KUnsubFrom i -> ope (s_inner s i) = false) ->
  (forall j, c <> KOnUnsub j) -> forallb hush K1 = true -> pend K1 = [] -> closing_in K1 = false ->
  (forall j, ~ In (KOnUnsub j) K1) -> G (K1 ++ K) s'.
Proof.
  intros c K K1 s s' H Ho Hou Hs Hdn Hup Htn Hl Hc1 Hc2 Hc3 Hc4 H1 H2 H3 H4.
  assert (Hb : bad (K1 ++ K) s' -> bad (c :: K) s).
  { intros Q. apply (@bad_app c K K1 s H3). unfold bad in *. rewrite <- Hs, <- Hdn, <- Hup. exact Q. }
  assert (Na : noaf K = true) by (apply (@atop_tl c); auto; apply (g_atop H)).
  assert (Na1 : noaf K1 = true).
  { unfold noaf. apply forallb_forall. intros x Hx. rewrite forallb_forall in H1. specialize (H1 x Hx). destruct x; auto. }
  assert (So : forall i, ope (s_inner s i) = true -> soon i (c :: K) = true -> soon i (K1 ++ K) = true).
  { intros i Hi Q. apply soon_app; auto. apply soon_tl in Q. destruct Q as [->|Q]; auto. rewrite (Hc3 i) in Hi; auto. discriminate. }
  assert (No : forall j, ~ In (KOnUnsub j) K) by (intros j; apply (g_onu H)).
  constructor.
  - rewrite Hdn. intros Q i. rewrite Ho. intros Hi. apply So; auto. now apply (g_tight H).
  - intros Q. destruct (g_T H (Hb Q)) as [Z|[Z|[[_ (j & K' & Z)]|(Z1 & Z2 & i & Z3)]]].
    + left. auto.
    + destruct Z as [Z|Z]; [destruct Hc2; [congruence|left; auto]|]. right. left. apply in_or_app. auto.
    + injection Z as Z _. now destruct (Hc4 j).
    + right. right. right. rewrite Hdn. split; [auto|]. split; [auto|]. exists i. now rewrite Ho.
  - rewrite pend_app, H2. cbn. intros Q Q'. apply (g_pend H); auto. rewrite pend_cons. intros Z. apply app_eq_nil in Z. now destruct Z.
  - apply noaf_atop, noaf_app; auto.
  - intros i Q. apply in_app_or in Q. destruct Q as [Q|Q]; [apply noaf_in in Q; auto; contradiction|]. rewrite Ho. apply (g_af H). now right.
  - intros i. rewrite Ho, Hou. apply (g_ou H).
  - intros j Q. assert (Q' : In (KOnUnsub j) (K1 ++ K)) by (destruct (K1 ++ K); [destruct Q|now right]).
    apply in_app_or in Q'. destruct Q' as [Q'|Q']; [now apply (H4 j)|now apply (No j)].
  - intros j K' Q. exfalso. assert (Q' : In (KOnUnsub j) (K1 ++ K)) by (rewrite Q; now left).
    apply in_app_or in Q'. destruct Q' as [Q'|Q']; [now apply (H4 j)|now apply (No j)].
  - intros Q i. rewrite Ho. intros Hi. assert (Z : shut s = true \/ closing_in (c :: K) = true).
    { rewrite <- Hs. destruct Q as [Q|Q]; auto. rewrite closing_app, H3 in Q. cbn in Q. right. now apply closing_tl. }
    destruct (g_rel H Z i Hi) as [Z'|[Z'|Z']]; [left; auto| |right; apply in_or_app; auto].
    rewrite (Hc3 i) in Hi; auto. discriminate.
  - auto.
Qed.

(** Nobody is open any more. *)
Lemma G_none : forall c K K1 s s', G (c :: K) s -> (forall i, ope (s_inner s' i) = false) ->
  shut s' = shut s -> s_up s' = s_up s -> (s_torn s = true -> s_torn s' = true) -> (is_closed (s_down s) = true -> is_closed (s_down s') = true) ->
  (is_closed (s_down s') = true -> is_closed (s_down s) = true \/ is_errored (s_up s) = true) ->
  always (none_late down) (s_tr s') -> (forall a, c <> KTell (Nxt a)) -> c <> KTear ->
  (bad (c :: K) s -> T (c :: K) s -> T (K1 ++ K) s') -> (closing_in K1 = true -> In KTear K1 /\ pend K = []) ->
  noaf K1 = true -> pend K1 = [] -> (forall j, ~ In (KOnUnsub j) (tl K1)) -> G (K1 ++ K) s'.
Proof.
  intros c K K1 s s' H Ho Hs Hup Htn Hd1 Hd2 Hl Hc1 Hc2 HT Hcl Na1 H2 H4.
  assert (Hb : bad (K1 ++ K) s' -> bad (c :: K) s \/ (In KTear K1 /\ pend K = [])).
  { intros [Q|[Q|[Q|Q]]]; unfold bad.
    - rewrite Hs in Q. auto.
    - destruct (Hd2 Q); auto.
    - rewrite Hup in Q. auto.
    - rewrite closing_app in Q. apply orb_true_iff in Q. destruct Q as [Q|Q]; auto. left. right. right. right. now apply closing_tl. }
  assert (Na : noaf K = true) by (apply (@atop_tl c); auto; apply (g_atop H)).
  assert (No : forall j, ~ In (KOnUnsub j) K) by (intros j; apply (g_onu H)).
  constructor.
  - intros Q i. rewrite Ho. discriminate.
  - intros Q. destruct (Hb Q) as [Z|[Z _]]; [apply HT; auto; apply (g_T H Z)|]. right. left. apply in_or_app. auto.
  - rewrite pend_app, H2. cbn. intros Q Q'. destruct (Hb Q') as [Z|[_ Z]]; [|congruence]. apply (g_pend H); auto. rewrite pend_cons. intros Z'. apply app_eq_nil in Z'. now destruct Z'.
  - apply noaf_atop, noaf_app; auto.
  - intros i Q. exfalso. apply in_app_or in Q. destruct Q as [Q|Q]; apply noaf_in in Q; auto.
  - intros i. rewrite Ho. discriminate.
  - intros j Q. destruct K1 as [|x K1]; [apply (No j); destruct K; [destruct Q|now right]|]. cbn in Q. apply in_app_or in Q.
    destruct Q as [Q|Q]; [now apply (H4 j)|now apply (No j)].
  - auto.
  - intros Q i. rewrite Ho. discriminate.
  - auto.
Qed.

Lemma ope_done : forall v, ope (set_completed v) = ope v.
Proof. reflexivity. Qed.
Lemma bad_tl : forall c K s, bad K s -> bad (c :: K) s.
Proof. intros c K s H. apply (@bad_app c K [] s); auto. Qed.

Lemma G_tell : forall m K s s' K1, W (KTell m :: K) s -> G (KTell m :: K) s -> step (KTell m) s = Some (s', K1) -> G (K1 ++ K) s'.
Proof.
  intros m K s s' K1 HW H R. destruct (@tell_shut _ _ down k Hk _ _ _ _ _ HW R) as (-> & X1 & X2). cbn [app].
  assert (Hin : s_inner s' = s_inner s /\ s_torn s' = s_torn s /\ s_down s' = s_down s /\ s_up s' = s_up s).
  { cbn in R. destruct (t_shut (s_told s)); [injection R as <-; auto|]. destruct k; [contradiction| |]; injection R as <-; auto. }
  destruct Hin as (I1 & I2 & I3 & I4).
  assert (Hs : shut s' = true -> shut s = true \/ is_closing m = true).
  { unfold shut. cbn in R. destruct (t_shut (s_told s)) eqn:Q; auto. intros Z. right.
    assert (Z' : s' = log (with_told s (tell down m (s_told s))) (TOut m)) by (destruct k; [contradiction| |]; now injection R).
    rewrite Z' in Z. cbn in Z. rewrite Q, Hd, orb_false_r in Z. exact Z. }
  assert (Sc : shut s' = true \/ closing_in K = true -> shut s = true \/ closing_in (KTell m :: K) = true).
  { intros [Q|Q]; [|right; now apply closing_tl]. destruct (Hs Q) as [Z|Z]; auto. right. cbn. now rewrite Z. }
  assert (Hb : bad K s' -> bad (KTell m :: K) s).
  { unfold bad. rewrite I3, I4. intros [Q|[Q|[Q|Q]]]; auto; destruct Sc as [Z|Z]; auto. }
  assert (No : forall j, ~ In (KOnUnsub j) K) by (intros j; apply (g_onu H)).
  constructor; unfold T; rewrite ?I1, ?I2, ?I3.
  - exact (g_tight H).
  - intros Q. destruct (g_T H (Hb Q)) as [Z|[[Z|Z]|[[_ (j & K' & Z)]|Z]]]; auto; discriminate.
  - intros Q Q'. apply (g_pend H); auto.
  - pose proof (g_atop H) as Q. destruct m as [a| | |]; [now apply atop_tell in Q| | |]; apply atop_tl in Q; try discriminate; now apply noaf_atop.
  - intros i Q. apply (g_af H). now right.
  - apply (g_ou H).
  - intros j Q. apply (No j). destruct K; [destruct Q|now right].
  - intros j K' ->. destruct (No j). now left.
  - intros Q i Hi. destruct (g_rel H (Sc Q) i Hi) as [Z|[Z|Z]]; auto. discriminate.
  - cbn in R. destruct (t_shut (s_told s)); [injection R as <-; apply (g_late H)|].
    assert (Z' : s' = log (with_told s (tell down m (s_told s))) (TOut m)) by (destruct k; [contradiction| |]; now injection R).
    rewrite Z'. apply (@late_same (with_told s _)); [apply (g_late H)|discriminate].
Qed.

Lemma G_create : forall i l K s s' K1, W (KCreate i l :: K) s -> G (KCreate i l :: K) s -> step (KCreate i l) s = Some (s', K1) -> G (K1 ++ K) s'.
Proof.
  intros i l K s s' K1 HW H R.
  assert (R' : s' = log (with_inner s i (mkInner true false false 0 true true)) (TSub i) /\ K1 = map (KCall i) l ++ [KSubscribed i]).
  { cbn [HoModel.step] in R. destruct k; [contradiction| |]; injection R as <- <-; auto. }
  destruct R' as [-> ->]. set (K1 := map (KCall i) l ++ [KSubscribed i]). set (s1 := log _ _).
  assert (Hi0 : In i (pend (KCreate i l :: K))) by (rewrite pend_cons; cbn; auto).
  assert (Hne : pend (KCreate i l :: K) <> []) by (intros Q; rewrite Q in Hi0; destruct Hi0).
  assert (Hpe : pend K = []) by (pose proof (w_pend HW) as P; rewrite pend_cons in P; cbn in P; destruct (pend K); auto; cbn in P; lia).
  assert (Hc1 : closing_in K1 = false) by (unfold K1; rewrite closing_app; cbn; rewrite orb_false_r; clear; induction l; auto).
  assert (Hp1 : pend K1 = []) by (unfold K1; rewrite pend_app; cbn; rewrite app_nil_r; clear; induction l; auto).
  assert (Hb : ~ bad (K1 ++ K) s1) by (intros Q; apply (g_pend H Hne); apply (@bad_app _ K K1 s Hc1); exact Q).
  assert (No : forall j, ope (s_inner s j) = false).
  { intros j. destruct (ope (s_inner s j)) eqn:Q; auto. destruct (w_create HW i j Hi0 Q) as [_ [K' Z]]. discriminate. }
  assert (Na : noaf K = true) by (apply (@atop_tl (KCreate i l)); [apply (g_atop H)|discriminate]).
  assert (Na1 : noaf K1 = true) by (unfold K1; apply noaf_app; auto; clear; induction l; auto).
  assert (NU : forall j, ~ In (KOnUnsub j) (K1 ++ K)).
  { intros j Q. apply in_app_or in Q. destruct Q as [Q|Q]; [|now apply (g_onu H j)]. apply in_calls in Q. destruct Q as [[x Q]|Q]; discriminate. }
  constructor.
  - intros Q. destruct Hb. unfold bad. auto.
  - intros Q. now destruct Hb.
  - rewrite pend_app, Hp1, Hpe. intros Q. now destruct Q.
  - apply noaf_atop, noaf_app; auto.
  - intros j Q. exfalso. apply in_app_or in Q. destruct Q as [Q|Q]; apply noaf_in in Q; auto.
  - intros j. unfold s1. cbn. destruct (j =? i); auto. intros Q. rewrite No in Q. discriminate.
  - intros j Q. apply (NU j). destruct (K1 ++ K); [destruct Q|now right].
  - intros j K' Q. destruct (NU j). rewrite Q. now left.
  - intros Q. destruct Hb. unfold bad. destruct Q; auto.
  - unfold s1. cbn. apply always_snoc; [apply (g_late H)|]. cbn. apply (m_shut (w_mir HW)).
    destruct (t_shut (s_told s)) eqn:Q; auto. destruct (g_pend H Hne). left. exact Q.
Qed.

Lemma G_unsub : forall c i K s s' K1, W (c :: K) s -> G (c :: K) s -> c = KUnsub i \/ c = KUnsubFrom i -> i_sub (s_inner s i) = true ->
  do_unsub i s = Some (s', K1) -> G (K1 ++ K) s'.
Proof.
  intros c i K s s' K1 HW H Hc Hi Q. unfold do_unsub in Q. destruct (i_closed (s_inner s i)) eqn:Ec.
  - injection Q as <- <-. apply (@G_std c K [] s s); auto; try apply (g_late H); try (destruct Hc; subst c; discriminate).
    + left. destruct Hc; subst c; discriminate.
    + intros j [Z|Z]; destruct Hc; subst c; try discriminate; injection Z as <-; unfold ope; now rewrite Ec, andb_false_r.
  - assert (Ho : ope (s_inner s i) = true) by (unfold ope; now rewrite Hi, Ec).
    assert (Hnu : 0 < s_nu s).
    { rewrite (w_nu HW). assert (0 < num ope s); [|lia]. apply (@cnt_pos _ _ i); auto. apply (w_sub HW i Hi). }
    destruct (minus_one (s_nu s)) as [nu|]; [|discriminate]. destruct (if i_completed _ then _ else _) as [nc|]; [|discriminate]. injection Q as <- <-.
    set (fire := negb (is_unsubscribed (s_down s)) && i_ou (s_inner s i)). set (d := if can_downstream_unsubscribe s then _ else _).
    apply (@G_none c K _ s); auto; try (destruct Hc; subst c; discriminate).
    + intros j. cbn. destruct (Nat.eq_dec j i) as [->|Ne].
      * rewrite Nat.eqb_refl. unfold ope. cbn. now rewrite andb_false_r.
      * replace (j =? i) with false by (symmetry; now apply Nat.eqb_neq). destruct (ope (s_inner s j)) eqn:Oj; auto. destruct Ne. apply (w_one HW); auto.
    + cbn. unfold d. destruct (can_downstream_unsubscribe s); auto using sun_cl.
    + cbn. unfold d. destruct (can_downstream_unsubscribe s) eqn:Z; auto. intros _. unfold can_downstream_unsubscribe in Z.
      replace (s_nu s =? 0) with false in Z by (symmetry; apply Nat.eqb_neq; lia). rewrite andb_false_r in Z. cbn in Z. apply orb_true_iff in Z. tauto.
    + apply (@late_same (with_inner s i _)); [apply (g_late H)|discriminate].
    + intros _ [Z|[Z|[[_ (j & K' & Z)]|(Z1 & Z2 & _)]]].
      * left. exact Z.
      * right. left. apply in_or_app. destruct Z as [Z|Z]; auto. destruct Hc; subst c; discriminate.
      * destruct Hc; subst c; discriminate.
      * right. right. left. unfold fire. rewrite Z2, (g_ou H i Ho). cbn. split; [|exists i, K; auto].
        unfold d. destruct (can_downstream_unsubscribe s); auto using sun_cl.
    + intros Z. destruct fire; discriminate.
    + destruct fire; auto.
    + destruct fire; auto.
    + intros j. destruct fire; intros [].
Qed.

Lemma step_G : forall c K s s' K1, W (c :: K) s -> G (c :: K) s -> step c s = Some (s', K1) -> G (K1 ++ K) s'.
Proof.
  intros c K s s' K1 HW H R. destruct (W_tl HW) as (T1 & T2 & T3 & T4).
  assert (Tr := g_late H).
  destruct c as [m| | | |i l|i m|i|i|i|i|i| |i| |i]; cbn in T4; try contradiction.
  - eapply G_tell; eauto.
  - (* KTear *)
    assert (Z : K1 = [] /\ s_inner s' = s_inner s /\ s_torn s' = true /\ s_down s' = s_down s /\ s_up s' = s_up s /\ shut s' = shut s /\ s_tr s' = s_tr s).
    { cbn in R. destruct (s_torn s) eqn:Q; [injection R as <- <-; repeat split; auto|]. destruct k; [contradiction| |]; injection R as <- <-; repeat split; auto. }
    destruct Z as (-> & I1 & I2 & I3 & I4 & I5 & I6). apply (@G_std KTear K [] s s'); auto; try discriminate; try (intros j; rewrite I1; auto; fail).
    + rewrite I6. auto.
    + intros j [Q|Q]; discriminate.
  - eapply G_create; eauto.
  - (* KCall *)
    cbn [HoModel.step] in R. destruct (i_closed (s_inner s i) || negb (i_sub (s_inner s i))) eqn:Ec.
    { injection R as <- <-. apply (@G_std (KCall i m) K [] s s); auto; try discriminate.
      - left. discriminate.
      - intros j [Q|Q]; discriminate. }
    apply orb_false_iff in Ec. destruct Ec as [Ec1 Ec2]. apply negb_false_iff in Ec2.
    assert (Hi : ope (s_inner s i) = true) by (unfold ope; now rewrite Ec1, Ec2).
    assert (Hcl : is_closed (s_down s) = false).
    { destruct (is_closed (s_down s)) eqn:Q; auto. pose proof (g_tight H Q i Hi) as Z. cbn in Z. rewrite Nat.eqb_refl in Z. discriminate. }
    assert (Na : noaf K = true) by (apply (@atop_tl (KCall i m)); [apply (g_atop H)|discriminate]).
    assert (No : forall j, ~ In (KOnUnsub j) K) by (intros j; apply (g_onu H)).
    assert (Hpe : pend K = []).
    { destruct (pend K) as [|x l] eqn:Q; auto. destruct (w_create HW x i) as [_ [K' Z]]; [change (pend (KCall i m :: K)) with (pend K); rewrite Q; now left|auto|discriminate]. }
    assert (Only : forall j, ope (s_inner s j) = true -> j = i) by (intros j Hj; now apply (w_one HW)).
    destruct m as [a|e| |].
    + injection R as <- <-. set (s1 := log s _).
      assert (Hb : bad ([KTell (Nxt a); KAfterNext i] ++ K) s1 -> bad (KCall i (Nxt a) :: K) s) by (intros Q; exact Q).
      constructor.
      * cbn [s1 log s_down]. intros Q. change (is_closed (s_down s) = true) in Q. congruence.
      * intros Q. destruct (g_T H (Hb Q)) as [Z|[[Z|Z]|[[_ (j & K' & Z)]|(Z & _)]]]; try discriminate; try congruence; [left; exact Z|right; left; cbn; auto].
      * change (pend K <> [] -> ~ bad ([KTell (Nxt a); KAfterNext i] ++ K) s1). congruence.
      * exact Na.
      * intros j [Q|[Q|Q]]; [discriminate|injection Q as <-; exact Hi|]. apply noaf_in in Q; auto; contradiction.
      * apply (g_ou H).
      * intros j [Q|Q]; [discriminate|now apply (No j)].
      * discriminate.
      * intros Q j Hj. assert (Z : shut s = true \/ closing_in (KCall i (Nxt a) :: K) = true) by exact Q.
        rewrite (Only j Hj). destruct (g_rel H Z i Hi) as [Y|[Y|Y]]; [cbn in Y; rewrite Nat.eqb_refl in Y; discriminate|discriminate|]. right. cbn. auto.
      * apply late_same; [auto|discriminate].
    + destruct (set_error (s_down (log s (TIn i (Err e))))) as [d|] eqn:Ed; [|discriminate]. injection R as <- <-. set (s1 := with_down _ d).
      apply se_some in Ed. destruct Ed as (_ & D2 & _ & D4). change (s_down (log s (TIn i (Err e)))) with (s_down s) in D4.
      assert (Hdc : is_closed d = true) by (rewrite closed_split, D2, !orb_true_r; auto).
      assert (Hdu : is_unsubscribed d = false) by (rewrite D4; rewrite closed_split in Hcl; apply orb_false_iff in Hcl; tauto).
      assert (So : forall j, ope (s_inner s j) = true -> soon j ([KTell (Err e); KUnsub i] ++ K) = true) by (intros j Hj; rewrite (Only j Hj); cbn; now rewrite Nat.eqb_refl).
      constructor.
      * intros _. exact So.
      * intros _. right. right. right. split; [exact Hdc|]. split; [exact Hdu|]. exists i. exact Hi.
      * change (pend K <> [] -> ~ bad ([KTell (Err e); KUnsub i] ++ K) s1). congruence.
      * cbn. exact Na.
      * intros j [Q|[Q|Q]]; try discriminate. apply noaf_in in Q; auto; contradiction.
      * apply (g_ou H).
      * intros j [Q|Q]; [discriminate|now apply (No j)].
      * discriminate.
      * intros _ j Hj. left. auto.
      * apply (@late_same s); [auto|discriminate].
    + assert (Z : s' = with_inner (log s (TIn i Cmp)) i (set_completed (s_inner s i)) /\ K1 = [KInnerCompleted i; KUnsub i]).
      { destruct k; [contradiction| |]; injection R as <- <-; auto. }
      destruct Z as [-> ->]. apply (@G_std (KCall i Cmp) K _ s); auto; try discriminate.
      * intros j. cbn. destruct (Nat.eqb_spec j i) as [->|]; auto using ope_done.
      * intros j. cbn. destruct (Nat.eqb_spec j i) as [->|]; auto.
      * apply (@late_same s); [auto|discriminate].
      * left. discriminate.
      * intros j [Q|Q]; discriminate.
      * intros j [Q|[Q|[]]]; discriminate.
    + injection R as <- <-. apply (@G_std (KCall i Uns) K _ s); auto; try discriminate.
      * apply late_same; [auto|discriminate].
      * left. discriminate.
      * intros j [Q|Q]; discriminate.
      * intros j [Q|[]]; discriminate.
  - (* KAfterNext *)
    assert (Hi := g_af H i (or_introl eq_refl)).
    assert (Hcl : is_closed (s_down s) = false).
    { destruct (is_closed (s_down s)) eqn:Q; auto. pose proof (g_tight H Q i Hi) as Z. cbn in Z. rewrite Nat.eqb_refl in Z. discriminate. }
    assert (Na : noaf K = true) by exact (g_atop H).
    assert (No : forall j, ~ In (KOnUnsub j) K) by (intros j; apply (g_onu H)).
    assert (Only : forall j, ope (s_inner s j) = true -> j = i) by (intros j Hj; now apply (w_one HW)).
    assert (So : forall j, ope (s_inner s j) = true -> soon j ([KUnsub i] ++ K) = true) by (intros j Hj; rewrite (Only j Hj); cbn; now rewrite Nat.eqb_refl).
    cbn [HoModel.step] in R. destruct (t_shut (s_told s)) eqn:Es; injection R as <- <-.
    + assert (Hb : bad (KAfterNext i :: K) s) by (left; exact Es).
      constructor.
      * intros _. exact So.
      * intros _. destruct (g_T H Hb) as [Z|[[Z|Z]|[[Z _]|[Z _]]]]; try discriminate; try congruence; [left; exact Z|right; left; cbn; auto].
      * intros Q. exfalso. apply (g_pend H Q Hb).
      * exact Na.
      * intros j [Q|Q]; [discriminate|]. apply noaf_in in Q; auto; contradiction.
      * apply (g_ou H).
      * exact No.
      * discriminate.
      * intros _ j Hj. left. auto.
      * exact Tr.
    + apply (@G_std (KAfterNext i) K [] s s); auto; try discriminate.
      * left. discriminate.
      * intros j [Q|Q]; discriminate.
  - (* KInnerCompleted *)
    assert (Na : noaf K = true) by (apply (@atop_tl (KInnerCompleted i)); [apply (g_atop H)|discriminate]).
    assert (No : forall j, ~ In (KOnUnsub j) K) by (intros j; apply (g_onu H)).
    assert (Hc := w_icopen HW i (or_introl eq_refl)). assert (Hi : ope (s_inner s i) = true) by (unfold ope; now rewrite (proj1 T4), Hc).
    assert (Only : forall j, ope (s_inner s j) = true -> j = i) by (intros j Hj; now apply (w_one HW)).
    assert (So : soon i K = true).
    { destruct (w_comp HW i (proj2 T4)) as [Z|Z]; [congruence|]. now apply before_soon. }
    cbn [HoModel.step] in R. destruct (s_nc s) as [|nc] eqn:En; [discriminate|].
    destruct (can_downstream_complete _) eqn:Ed.
    + destruct (set_complete (s_down (with_counts s nc (s_nu s)))) as [d|] eqn:Es; [|discriminate]. injection R as <- <-.
      apply sc_some in Es. destruct Es as (D1 & D2 & _ & D4). change (s_down (with_counts s nc (s_nu s))) with (s_down s) in *.
      assert (Hdc : is_closed d = true) by (rewrite closed_split, D2, !orb_true_r; auto).
      assert (Hdu : is_unsubscribed d = false) by (rewrite D4; rewrite closed_split in D1; apply orb_false_iff in D1; tauto).
      assert (Hpe : pend K = []).
      { destruct (pend K) as [|x l] eqn:Q; auto. destruct (w_create HW x i) as [_ [K' Z]]; [change (pend (KInnerCompleted i :: K)) with (pend K); rewrite Q; now left|auto|discriminate]. }
      constructor.
      * intros _ j Hj. rewrite (Only j Hj). exact So.
      * intros _. right. right. right. split; [exact Hdc|]. split; [exact Hdu|]. exists i. exact Hi.
      * intros Q. exfalso. apply Q. exact Hpe.
      * cbn. exact Na.
      * intros j [Q|Q]; [discriminate|]. apply noaf_in in Q; auto; contradiction.
      * apply (g_ou H).
      * exact No.
      * discriminate.
      * intros _ j Hj. left. rewrite (Only j Hj). exact So.
      * exact Tr.
    + injection R as <- <-. apply (@G_std (KInnerCompleted i) K [] s); auto; try discriminate.
      * left. discriminate.
      * intros j [Q|Q]; discriminate.
  - (* KUnsub *) eapply G_unsub; eauto.
  - (* KUnsubFrom *) cbn [HoModel.step] in R. destruct (existsb (Nat.eqb i) (s_busy s)) eqn:Eb; [|eapply G_unsub; eauto].
    assert (Q := w_from HW i (or_introl eq_refl)). rewrite Q in Eb. discriminate.
  - (* KOnUnsub *)
    assert (Z : s' = s /\ K1 = if can_downstream_unsubscribe s then [KTear; KTell Uns] else []).
    { cbn in R. destruct k; [contradiction| |]; injection R as <- <-; auto. }
    destruct Z as [-> ->]. assert (None := g_onu2 H eq_refl).
    assert (Hpe : can_downstream_unsubscribe s = true -> pend K = []).
    { intros Q. destruct (pend K) as [|x l] eqn:Qp; auto. exfalso.
      assert (Hp : pend (KOnUnsub i :: K) <> []) by (change (pend (KOnUnsub i :: K)) with (pend K); rewrite Qp; discriminate).
      assert (Nb := g_pend H Hp). unfold can_downstream_unsubscribe in Q.
      assert (Hq : s_nu s =? 0 = false) by (apply Nat.eqb_neq; rewrite (w_nu HW); change (pend (KOnUnsub i :: K)) with (pend K); rewrite Qp; cbn; lia).
      rewrite Hq, andb_false_r in Q. cbn in Q. apply orb_true_iff in Q. apply Nb. unfold bad. tauto. }
    apply (@G_none (KOnUnsub i) K _ s); auto; try discriminate.
    + intros _ [Z|[[Z|Z]|[[Z _]|(_ & _ & j & Z)]]].
      * left. exact Z.
      * discriminate.
      * right. left. apply in_or_app. auto.
      * right. left. apply in_or_app. left. replace (can_downstream_unsubscribe s) with true; [now left|].
        unfold can_downstream_unsubscribe. now rewrite Z, orb_true_r.
      * rewrite None in Z. discriminate.
    + destruct (can_downstream_unsubscribe s); [|discriminate]. intros _. split; [now left|auto].
    + destruct (can_downstream_unsubscribe s); auto.
    + destruct (can_downstream_unsubscribe s); auto.
    + intros j. destruct (can_downstream_unsubscribe s); [|intros []]. intros [Q|[]]. discriminate.
  - (* KSubscribed *)
    assert (Z : K1 = [] /\ s_inner s' = s_inner s /\ s_torn s' = s_torn s /\ s_down s' = s_down s /\ s_up s' = s_up s /\ shut s' = shut s /\ s_tr s' = s_tr s).
    { cbn in R. destruct (i_closed _); [injection R as <- <-; repeat split; auto|]. destruct k; [contradiction| |]; injection R as <- <-; repeat split; auto. }
    destruct Z as (-> & I1 & I2 & I3 & I4 & I5 & I6). apply (@G_std (KSubscribed i) K [] s s'); auto; try discriminate; try (intros j; rewrite I1; auto; fail).
    + rewrite I2. auto.
    + rewrite I6. auto.
    + left. discriminate.
    + intros j [Q|Q]; discriminate.
  - (* KCheck *)
    assert (Hn : K = []) by (pose proof (w_check HW) as Q; cbn in Q; destruct K; auto; discriminate). subst K.
    cbn [HoModel.step] in R. destruct (t_shut (s_told s) && negb (s_torn s)) eqn:Q.
    + exfalso. apply andb_true_iff in Q. destruct Q as [Q1 Q2]. apply negb_true_iff in Q2.
      destruct (g_T H (or_introl Q1)) as [Z|[[Z|[]]|[[_ (j & K' & Z)]|(Z1 & _ & j & Z3)]]]; try congruence.
      pose proof (g_tight H Z1 j Z3) as Y. discriminate.
    + injection R as <- <-. apply (@G_std KCheck [] [] s s); auto; try discriminate.
      * left. discriminate.
      * intros j [Z|Z]; discriminate.
  - (* KFree *) cbn [HoModel.step] in R. injection R as <- <-. apply (@G_std (KFree i) K [] s); auto; try discriminate.
    + left. discriminate.
    + intros j [Z|Z]; discriminate.
Qed.

(** *** What happens from outside. *)
Lemma T_nil : forall s, G [] s -> T [] s -> s_torn s = true.
Proof.
  intros s H [Z|[[]|[[_ (j & K' & Z)]|(Z1 & _ & j & Z3)]]]; auto; [discriminate|]. pose proof (g_tight H Z1 j Z3) as Y. discriminate.
Qed.
Lemma G_enter : forall s s' K, G [] s -> s_inner s' = s_inner s -> s_down s' = s_down s -> shut s' = shut s -> s_torn s' = s_torn s ->
  always (none_late down) (s_tr s') -> noaf K = true -> (forall j, ~ In (KOnUnsub j) K) ->
  (bad [] s -> pend K = []) ->
  (is_errored (s_up s') = true -> is_errored (s_up s) = true \/ (In KTear K /\ pend K = [])) ->
  (closing_in K = true -> In KTear K /\ pend K = [] /\ forall i, ope (s_inner s i) = true -> In (KUnsubFrom i) K) -> G K s'.
Proof.
  intros s s' K H I1 I2 I3 I4 Hl Na No Hp Hu Hc.
  assert (Hb : bad K s' -> bad [] s \/ (In KTear K /\ pend K = [])).
  { unfold bad. rewrite I2, I3. intros [Q|[Q|[Q|Q]]]; auto; [destruct (Hu Q); auto|]. destruct (Hc Q) as (Z1 & Z2 & _). auto. }
  constructor; rewrite ?I1, ?I2, ?I3.
  - intros Q i Hi. pose proof (g_tight H Q i Hi). discriminate.
  - intros Q. unfold T. destruct (Hb Q) as [Z|[Z _]]; auto. left. rewrite I4. apply (T_nil H), (g_T H Z).
  - intros Q Q'. destruct (Hb Q') as [Z|[_ Z]]; [apply Q; auto|contradiction].
  - now apply noaf_atop.
  - intros i Q. apply noaf_in in Q; auto; contradiction.
  - apply (g_ou H).
  - intros j Q. apply (No j). destruct K; [destruct Q|now right].
  - intros j K' ->. destruct (No j). now left.
  - intros [Q|Q] i Hi; [|destruct (Hc Q) as (_ & _ & Z); auto]. destruct (g_rel H (or_introl Q) i Hi) as [Z|[]]. discriminate.
  - auto.
Qed.

Lemma perform_G2 : forall a s s' K, W [] s -> G [] s -> perform k a s = Some (s', K) -> G K s'.
Proof.
  intros a s s' K HW H R.
  assert (Tn : is_torn k s = s_torn s) by (destruct k; [contradiction| |]; auto).
  assert (Nb : s_torn s = false -> ~ bad [] s) by (intros Q Q'; rewrite (T_nil H (g_T H Q')) in Q; discriminate).
  assert (Cu : forall i, ope (s_inner s i) = true -> s_cur s = Some i) by (intros i Hi; destruct (w_cur HW i Hi) as [Z|[[]|[]]]; auto).
  destruct a as [l|e| | |i m]; cbn [perform] in R; rewrite ?Tn in R.
  - destruct (s_torn s) eqn:Et; [injection R as <- <-; auto|]. specialize (Nb eq_refl).
    assert (Z : s_inner s' = s_inner s /\ s_down s' = s_down s /\ shut s' = shut s /\ s_torn s' = s_torn s /\ s_up s' = s_up s /\
      s_tr s' = s_tr s ++ [TArrive (s_arrived s)] /\ noaf K = true /\ closing_in K = false /\ forall j, ~ In (KOnUnsub j) K).
    { destruct k; [contradiction| |].
      - injection R as <- <-. repeat split; auto; destruct (s_cur s); auto; intros j Q; cbn in Q; repeat (destruct Q as [Q|Q]; [discriminate|]); destruct Q.
      - destruct (_ =? 0); injection R as <- <-; repeat split; auto; destruct (s_cur s); auto; intros j Q; cbn in Q; repeat (destruct Q as [Q|Q]; [discriminate|]); destruct Q. }
    destruct Z as (I1 & I2 & I3 & I4 & I5 & I6 & I7 & I8 & I9). apply (@G_enter s); auto.
    + rewrite I6. apply (@late_same s); [apply (g_late H)|discriminate].
    + contradiction.
    + rewrite I5. auto.
    + congruence.
  - destruct (s_torn s) eqn:Et; [injection R as <- <-; auto|]. specialize (Nb eq_refl).
    destruct (set_error _) as [u|]; [|discriminate].
    assert (Z : s_inner s' = s_inner s /\ s_down s' = s_down s /\ shut s' = shut s /\ s_torn s' = s_torn s /\
      s_tr s' = s_tr s ++ [TUp (Err e)] /\ noaf K = true /\ (forall j, ~ In (KOnUnsub j) K) /\ In KTear K /\ pend K = [] /\ forall i, s_cur s = Some i -> In (KUnsubFrom i) K).
    { destruct k; [contradiction| |]; injection R as <- <-; repeat split; auto; destruct (s_cur s); auto; cbn; auto; try discriminate;
        try (intros j Q; injection Q as ->; tauto); try (intros j Q; cbn in Q; repeat (destruct Q as [Q|Q]; [discriminate|]); destruct Q). }
    destruct Z as (I1 & I2 & I3 & I4 & I5 & I6 & I7 & I8 & I9 & I10). apply (@G_enter s); auto.
    rewrite I5. apply (@late_same s); [apply (g_late H)|discriminate].
  - destruct (s_torn s) eqn:Et; [injection R as <- <-; auto|]. specialize (Nb eq_refl).
    destruct (set_complete _) as [u|] eqn:E1; [|discriminate]. destruct (set_unsubscribe u) as [u'|] eqn:E2; [|discriminate].
    assert (Eu : is_errored u' = is_errored (s_up s)).
    { apply sc_some in E1. apply su_some in E2. destruct E1 as (_ & _ & E1 & _). destruct E2 as (_ & _ & E2 & _). rewrite E2, E1. reflexivity. }
    assert (Z : s_inner s' = s_inner s /\ s_down s' = s_down s /\ shut s' = shut s /\ s_torn s' = s_torn s /\ s_up s' = u' /\
      s_tr s' = s_tr s ++ [TUp Cmp] /\ noaf K = true /\ (forall j, ~ In (KOnUnsub j) K) /\ pend K = [] /\
      (closing_in K = true -> In KTear K /\ forall i, s_cur s = Some i -> In (KUnsubFrom i) K)).
    { destruct (can_downstream_complete _); [destruct k; [contradiction| |]|]; injection R as <- <-; repeat split; auto; destruct (s_cur s); auto; cbn; auto; try discriminate;
        try (intros j Q; injection Q as ->; tauto); try (intros j Q; cbn in Q; repeat (destruct Q as [Q|Q]; [discriminate|]); destruct Q). }
    destruct Z as (I1 & I2 & I3 & I4 & I5 & I6 & I7 & I8 & I9 & I10). apply (@G_enter s); auto.
    + rewrite I6. apply (@late_same s); [apply (g_late H)|discriminate].
    + rewrite I5, Eu. auto.
    + intros Q. destruct (I10 Q). auto.
  - destruct (s_torn s) eqn:Et; [injection R as <- <-; auto|]. specialize (Nb eq_refl).
    unfold unsubscribe in R. replace (is_torn k (log s (TUp Uns))) with false in R by (destruct k; [contradiction| |]; auto).
    assert (Z : s_inner s' = s_inner s /\ s_down s' = s_down s /\ shut s' = shut s /\ s_torn s' = s_torn s /\ s_up s' = s_up s /\
      s_tr s' = s_tr s ++ [TUp Uns] /\ noaf K = true /\ (forall j, ~ In (KOnUnsub j) K) /\ In KTear K /\ pend K = [] /\ forall i, s_cur s = Some i -> In (KUnsubFrom i) K).
    { destruct k; [contradiction| |]; injection R as <- <-; cbn [with_cur log s_cur]; repeat split; auto; destruct (s_cur s); auto; cbn; auto; try discriminate;
        try (intros j Q; injection Q as ->; tauto); try (intros j Q; cbn in Q; repeat (destruct Q as [Q|Q]; [discriminate|]); destruct Q). }
    destruct Z as (I1 & I2 & I3 & I4 & I5 & I6 & I7 & I8 & I9 & I10 & I11). apply (@G_enter s); auto.
    + rewrite I6. apply (@late_same s); [apply (g_late H)|discriminate].
  - destruct (_ || _); [injection R as <- <-; auto|]. injection R as <- <-. apply (@G_enter s); auto; try discriminate.
    + apply (g_late H).
    + intros j [Q|[Q|[]]]; discriminate.
Qed.

Lemma init_G2 : G [] init.
Proof.
  constructor.
  - discriminate.
  - intros [Q|[Q|[Q|Q]]]; discriminate.
  - intros Q. now destruct Q.
  - reflexivity.
  - intros j [].
  - discriminate.
  - intros j [].
  - discriminate.
  - intros [Q|Q]; discriminate.
  - apply always_nil.
Qed.
Definition I4 K s : Prop := W K s /\ G K s.
Lemma step_I4 : forall c K s s' K1, I4 (c :: K) s -> step c s = Some (s', K1) -> I4 (K1 ++ K) s'.
Proof. intros c K s s' K1 [H1 H2] R. split; [eapply step_W; eauto|eapply step_G; eauto]. Qed.
Lemma perform_I4 : forall a s s' K, I4 [] s -> perform k a s = Some (s', K) -> I4 K s'.
Proof. intros a s s' K [H1 H2] R. split; [eapply perform_W; eauto|eapply perform_G2; eauto]. Qed.
Lemma flatten_I4 : forall fuel h s, flatten down k fuel h init = Fine s -> I4 [] s.
Proof.
  intros fuel h s R. eapply (@flatten_inv A E down k (fun _ _ => True) I4); eauto.
  - intros; eapply step_I4; eauto.
  - intros a s0 s1 K1 H _ Hp. eapply perform_I4; eauto.
  - split; [now apply init_W|apply init_G2].
Qed.
Lemma passive_released : forall fuel h s, flatten down k fuel h init = Fine s -> released down (s_tr s).
Proof.
  intros fuel h s R Ho i Hi. destruct (flatten_I4 _ _ R) as [HW H]. assert (M := w_mir HW). rewrite <- (m_sub M) in Hi. rewrite <- (m_end M).
  destruct (i_closed (s_inner s i)) eqn:Q; auto. exfalso.
  assert (Hs : shut s = true) by (destruct (shut s) eqn:Z; auto; destruct Ho; now apply (m_shut M)).
  destruct (g_rel H (or_introl Hs) i) as [Z|[]]; [unfold ope; now rewrite Hi, Q|discriminate].
Qed.
Lemma passive_none_late : forall fuel h s, flatten down k fuel h init = Fine s -> always (none_late down) (s_tr s).
Proof. intros fuel h s R. apply (flatten_I4 _ _ R). Qed.

(** *** No panic. *)
Lemma unsub_fine4 : forall c i K s, W (c :: K) s -> i_sub (s_inner s i) = true -> do_unsub i s <> None.
Proof.
  intros c i K s H Hi. unfold do_unsub. destruct (i_closed (s_inner s i)) eqn:Ec; [discriminate|].
  assert (Hlt := w_sub H _ Hi).
  assert (0 < num ope s) by (apply (@cnt_pos _ _ i); auto; unfold ope; now rewrite Hi, Ec).
  pose proof (w_nu H). destruct (s_nu s) as [|nu]; [lia|]. cbn [minus_one]. destruct (i_completed (s_inner s i)) eqn:Q; [discriminate|].
  assert (0 < num liv s) by (apply (@cnt_pos _ _ i); auto; unfold liv; now rewrite Hi, Ec, Q).
  pose proof (w_nc H). destruct (s_nc s) as [|nc]; [lia|]. discriminate.
Qed.
Lemma step_fine4 : forall c K s, I4 (c :: K) s -> step c s <> None.
Proof.
  intros c K s (HW & H). destruct (W_tl HW) as (T1 & T2 & T3 & F).
  destruct c as [m| | | |i l|i m|i|i|i|i|i| |i| |i]; cbn [HoModel.step]; cbn [okf1] in F; try discriminate.
  - destruct (t_shut _); discriminate.
  - destruct (s_torn s); [discriminate|]. destruct k; discriminate.
  - contradiction.
  - destruct (i_closed (s_inner s i)) eqn:Ec; [discriminate|]. destruct (i_sub (s_inner s i)) eqn:Es; [|discriminate]. cbn [orb negb].
    destruct m as [a|e| |]; try discriminate.
    assert (Dn : is_closed (s_down s) = false).
    { destruct (is_closed (s_down s)) eqn:Q; auto. assert (Hi : ope (s_inner s i) = true) by (unfold ope; now rewrite Es, Ec).
      pose proof (g_tight H Q i Hi) as Z. cbn in Z. rewrite Nat.eqb_refl in Z. discriminate. }
    unfold set_error. change (s_down (log s (TIn i (Err e)))) with (s_down s). rewrite Dn. discriminate.
  - destruct (t_shut _); discriminate.
  - pose proof (w_nc HW) as Hn. rewrite nic_cons in Hn. cbn [is_ic] in Hn. destruct (s_nc s) as [|nc]; [lia|].
    destruct (can_downstream_complete _) eqn:Ed; [|discriminate]. unfold can_downstream_complete in Ed. rewrite !andb_true_iff in Ed. destruct Ed as [_ Ed]. apply negb_true_iff in Ed.
    unfold set_complete. rewrite Ed. discriminate.
  - eapply unsub_fine4; eauto.
  - destruct (existsb _ _); [discriminate|]. eapply unsub_fine4; eauto.
  - destruct k; discriminate.
  - destruct (i_closed _); [discriminate|]. destruct k; [contradiction| |]; discriminate.
  - destruct (_ && _); discriminate.
Qed.
Lemma unsub_up : forall i s s' K1, do_unsub i s = Some (s', K1) -> s_up s' = s_up s.
Proof.
  intros i s s' K1 R. unfold do_unsub in R. destruct (i_closed _); [now injection R as <- <-|].
  destruct (minus_one _); [|discriminate]. destruct (if i_completed _ then _ else _); [|discriminate]. now injection R as <- <-.
Qed.
Lemma step_up4 : forall c K s s' K1, W (c :: K) s -> step c s = Some (s', K1) -> s_up s' = s_up s.
Proof.
  intros c K s s' K1 HW R. destruct (W_tl HW) as (_ & _ & _ & F).
  destruct c as [m| | | |i l|i m|i|i|i|i|i| |i| |i]; cbn [HoModel.step] in R; cbn [okf1] in F; try contradiction.
  - destruct (t_shut _); [now injection R as <- <-|]. destruct k; now injection R as <- <-.
  - destruct (s_torn s); [now injection R as <- <-|]. destruct k; now injection R as <- <-.
  - destruct k; now injection R as <- <-.
  - destruct (_ || _); [now injection R as <- <-|]. destruct m; try (now injection R as <- <-). destruct (set_error _); [|discriminate]. now injection R as <- <-.
  - destruct (t_shut _); now injection R as <- <-.
  - destruct (s_nc s); [discriminate|]. destruct (can_downstream_complete _); [destruct (set_complete _); [|discriminate]|]; now injection R as <- <-.
  - eapply unsub_up; eauto.
  - destruct (existsb _ _); [now injection R as <- <-|eapply unsub_up; eauto].
  - destruct k; now injection R as <- <-.
  - destruct (i_closed _); [now injection R as <- <-|]. destruct k; [contradiction| |]; now injection R as <- <-.
  - destruct (_ && _); now injection R as <- <-.
  - now injection R as <- <-.
Qed.
Lemma flatten_fine4 : forall fuel h s closed gone, contract closed gone (outer h) -> I4 [] s ->
  (closed = false -> is_closed (s_up s) = false) -> flatten down k fuel h s <> Panic.
Proof.
  intros fuel h. induction h as [|a h IH]; intros s closed gone C I0 Hc; cbn [flatten]; [discriminate|].
  assert (G' : forall s' K closed' gone', perform k a s = Some (s', K) -> contract closed' gone' (outer h) ->
    (closed' = false -> is_closed (s_up s') = false) ->
    match drive down k fuel K s' with Fine s1 => flatten down k fuel h s1 | r => r end <> Panic).
  { intros s' K closed' gone' R C' Hc'. pose proof (perform_I4 a I0 R) as I1'.
    destruct (drive down k fuel K s') as [s1| |] eqn:Ed; [|exfalso|discriminate].
    - assert (Q : I4 [] s1 /\ s_up s1 = s_up s').
      { refine (@drive_inv A E down k (fun K x => I4 K x /\ s_up x = s_up s') _ fuel K s' s1 _ Ed); auto.
        intros c K0 x x' K1 [Z1 Z2] Rx. split; [eapply step_I4; eauto|]. rewrite <- Z2. eapply step_up4; eauto. apply Z1. }
      destruct Q as [Q1 Q2]. apply (IH s1 closed' gone'); auto. intros Z. rewrite Q2. auto.
    - revert Ed. apply (@drive_fine A E down k I4); auto; intros; [eapply step_fine4; eauto|eapply step_I4; eauto]. }
  destruct (perform k a s) as [[s' K]|] eqn:R.
  - destruct a as [l|e| | |i c]; cbn [outer flat_map app] in C; cbn [contract] in C.
    + destruct C as [Hcl C]. apply (G' s' K closed gone); auto. intros _. specialize (Hc Hcl). cbn [perform] in R.
      destruct (is_torn _ s); [now injection R as <- <-|]. destruct k; [contradiction| |destruct (_ =? 0)]; now injection R as <- <-.
    + destruct C as [Hcl C]. apply (G' s' K true gone); auto. discriminate.
    + destruct C as [Hcl C]. apply (G' s' K true gone); auto. discriminate.
    + apply (G' s' K true true); auto. discriminate.
    + apply (G' s' K closed gone); auto. intros Hcl. cbn [perform] in R. destruct (_ || _); injection R as <- <-; auto.
  - exfalso. destruct a as [l|e| | |i c]; cbn [outer flat_map app] in C; cbn [contract] in C; cbn [perform] in R.
    + destruct (is_torn _ s); [discriminate|]. destruct k; [contradiction| |destruct (_ =? 0)]; discriminate.
    + destruct C as [Hcl C]. destruct (is_torn _ s) eqn:Et; [discriminate|]. specialize (Hc Hcl).
      unfold set_error in R. change (s_up (log s (TUp (Err e)))) with (s_up s) in R. rewrite Hc in R. destruct k; discriminate.
    + destruct C as [Hcl C]. destruct (is_torn _ s) eqn:Et; [discriminate|]. specialize (Hc Hcl).
      destruct (set_complete (s_up (log s (TUp Cmp)))) as [u|] eqn:Eu.
      * pose proof (sc_some _ Eu) as (_ & _ & _ & U). unfold set_unsubscribe in R. rewrite U in R. cbn [s_up log] in R. rewrite closed_split in Hc. apply orb_false_iff in Hc. destruct Hc as [Hc _].
        rewrite Hc in R. destruct (can_downstream_complete _); [destruct k|]; discriminate.
      * unfold set_complete in Eu. change (s_up (log s (TUp Cmp))) with (s_up s) in Eu. rewrite Hc in Eu. discriminate.
    + destruct (is_torn _ s); discriminate.
    + destruct (_ || _); discriminate.
Qed.
Lemma passive_fine : forall fuel h, contract false false (outer h) -> flatten down k fuel h init <> Panic.
Proof.
  intros fuel h C. apply (@flatten_fine4 fuel h init false false C); auto. split; [now apply init_W|apply init_G2].
Qed.
End One4.
