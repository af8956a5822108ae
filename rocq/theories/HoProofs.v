(** Proofs about [HoModel]: counting, flags, what the trace says about the state. *)
From Coq Require Import NArith.
From Verif Require Import Base SubscrModel LifeModel CombModel HoModel HoSpec.
Set Implicit Arguments.

(** *** Counting. *)
Definition cnt (f : nat -> bool) (n : nat) : nat := length (filter f (seq 0 n)).
Lemma cnt_S : forall f n, cnt f (S n) = cnt f n + if f n then 1 else 0.
Proof. intros. unfold cnt. rewrite seq_S, filter_app, app_length. cbn. now destruct (f n). Qed.
Lemma cnt_ext : forall f g n, (forall i, i < n -> f i = g i) -> cnt f n = cnt g n.
Proof. intros f g n. induction n; intros H; auto. rewrite !cnt_S, IHn by (intros; apply H; lia). now rewrite H by lia. Qed.
Lemma cnt_le : forall f g n, (forall i, i < n -> f i = true -> g i = true) -> cnt f n <= cnt g n.
Proof.
  intros f g n. induction n; intros H; auto. rewrite !cnt_S. specialize (IHn (fun i Hi => H i ltac:(lia))).
  specialize (H n ltac:(lia)). destruct (f n), (g n); lia.
Qed.
Lemma cnt_set : forall f g n i, i < n -> (forall j, j <> i -> g j = f j) ->
  cnt g n + (if f i then 1 else 0) = cnt f n + (if g i then 1 else 0).
Proof.
  intros f g n i Hi H. induction n; [lia|]. rewrite !cnt_S. destruct (Nat.eq_dec i n) as [->|Hn].
  - rewrite (@cnt_ext g f n) by (intros; apply H; lia). lia.
  - rewrite (H n) by auto. specialize (IHn ltac:(lia)). lia.
Qed.
Lemma cnt_pos : forall f n i, i < n -> f i = true -> 0 < cnt f n.
Proof.
  intros f n i Hi H. pose proof (@cnt_set f (fun j => if j =? i then false else f j) n i Hi) as K. cbn beta in K.
  rewrite Nat.eqb_refl, H in K. specialize (K (fun j Hj => ltac:(apply Nat.eqb_neq in Hj; now rewrite Hj))). lia.
Qed.
Lemma cnt_zero : forall f n, cnt f n = 0 -> forall i, i < n -> f i = false.
Proof. intros f n H i Hi. destruct (f i) eqn:E; auto. pose proof (@cnt_pos f n i Hi E). lia. Qed.
Lemma cnt_none : forall f n, (forall i, i < n -> f i = false) -> cnt f n = 0.
Proof. intros f n. induction n; intros H; auto. rewrite cnt_S, IHn by (intros; apply H; lia). now rewrite H by lia. Qed.
Lemma cnt_lt : forall f g n i, (forall j, j < n -> f j = true -> g j = true) -> i < n -> f i = false -> g i = true -> cnt f n < cnt g n.
Proof.
  intros f g n i H Hi Hf Hg. pose proof (@cnt_set f (fun j => if j =? i then true else f j) n i Hi) as K. cbn beta in K.
  rewrite Nat.eqb_refl, Hf in K. specialize (K (fun j Hj => ltac:(apply Nat.eqb_neq in Hj; now rewrite Hj))).
  assert (cnt (fun j => if j =? i then true else f j) n <= cnt g n); [|lia].
  apply cnt_le. intros j Hj. destruct (j =? i) eqn:Ej; auto. apply Nat.eqb_eq in Ej. now subst.
Qed.

Lemma nodup_l : forall X (a b : list X), NoDup (a ++ b) -> NoDup a.
Proof.
  induction a as [|x a IH]; cbn; intros b H; [constructor|]. inversion H; subst. constructor; eauto.
  intros K. apply H2. apply in_or_app. auto.
Qed.

(** *** Flags. *)
Lemma contains_bit : forall s j, contains s (2 ^ j) = N.testbit s j.
Proof.
  intros s j. unfold contains. destruct (N.testbit s j) eqn:E.
  - apply N.eqb_eq. apply N.bits_inj. intros n. rewrite N.land_spec, N.pow2_bits_eqb. destruct (N.eqb_spec j n) as [->|]; [now rewrite E|apply andb_false_r].
  - apply N.eqb_neq. intros H. apply (f_equal (fun x => N.testbit x j)) in H. rewrite N.land_spec, E, N.pow2_bits_true in H. discriminate.
Qed.
Lemma c_bit : forall s, is_completed s = N.testbit s 2. Proof. intros. apply (contains_bit s 2). Qed.
Lemma e_bit : forall s, is_errored s = N.testbit s 3. Proof. intros. apply (contains_bit s 3). Qed.
Lemma u_bit : forall s, is_unsubscribed s = N.testbit s 4. Proof. intros. apply (contains_bit s 4). Qed.
Lemma mark_bit : forall s j n, n <> 0%N -> N.testbit (mark (2 ^ j) s) n = (N.eqb j n || N.testbit s n).
Proof.
  intros s j n Hn. unfold mark, insert, remove. rewrite N.lor_spec, N.ldiff_spec, N.pow2_bits_eqb.
  assert (HW : N.testbit WAITING n = false) by (change WAITING with (2 ^ 0)%N; apply N.pow2_bits_false; auto).
  rewrite HW, andb_true_r. apply orb_comm.
Qed.
Ltac flags := unfold set_unsubscribe_if_not_already; rewrite ?c_bit, ?e_bit, ?u_bit;
  change UNSUBSCRIBED with (2 ^ 4)%N; change COMPLETED with (2 ^ 2)%N; change ERRORED with (2 ^ 3)%N;
  rewrite ?mark_bit by discriminate; cbn.
Lemma sun_c : forall s, is_completed (set_unsubscribe_if_not_already s) = is_completed s. Proof. intros. flags. auto. Qed.
Lemma sun_e : forall s, is_errored (set_unsubscribe_if_not_already s) = is_errored s. Proof. intros. flags. auto. Qed.
Lemma sun_u : forall s, is_unsubscribed (set_unsubscribe_if_not_already s) = true. Proof. intros. flags. auto. Qed.
Lemma sun_cl : forall s, is_closed (set_unsubscribe_if_not_already s) = true. Proof. intros. unfold is_closed. now rewrite sun_u. Qed.
Lemma sc_some : forall s s', set_complete s = Some s' -> is_closed s = false /\
  is_completed s' = true /\ is_errored s' = is_errored s /\ is_unsubscribed s' = is_unsubscribed s.
Proof. intros s s' H. unfold set_complete in H. destruct (is_closed s); [discriminate|]. injection H as <-. split; auto. flags. auto. Qed.
Lemma se_some : forall s s', set_error s = Some s' -> is_closed s = false /\
  is_errored s' = true /\ is_completed s' = is_completed s /\ is_unsubscribed s' = is_unsubscribed s.
Proof. intros s s' H. unfold set_error in H. destruct (is_closed s); [discriminate|]. injection H as <-. split; auto. flags. auto. Qed.
Lemma su_some : forall s s', set_unsubscribe s = Some s' -> is_unsubscribed s = false /\
  is_unsubscribed s' = true /\ is_errored s' = is_errored s /\ is_completed s' = is_completed s.
Proof. intros s s' H. unfold set_unsubscribe in H. destruct (is_unsubscribed s); [discriminate|]. injection H as <-. split; auto. flags. auto. Qed.
Lemma closed_split : forall s, is_closed s = is_unsubscribed s || (is_completed s || is_errored s). Proof. reflexivity. Qed.

(** *** Traces. *)
Arguments outs : simpl never.
Arguments arrivals : simpl never.
Arguments subscribed : simpl never.
Arguments completed : simpl never.
Arguments ended : simpl never.
Arguments outer_completed : simpl never.
Arguments outer_unsubscribed : simpl never.
Section Trace.
Variables A E : Type.
Variable down : list (ncall A E) -> bool.
Notation ev := (HoModel.ev A E).
Implicit Types (l p : list ev) (e : ev).

Lemma outs_snoc : forall l e, outs (l ++ [e]) = outs l ++ match e with TOut c => [c] | _ => [] end.
Proof. intros. unfold outs. rewrite flat_map_app. cbn. now rewrite app_nil_r. Qed.
Lemma arrivals_snoc : forall l e, arrivals (l ++ [e]) = arrivals l + match e with TArrive _ => 1 | _ => 0 end.
Proof. intros. unfold arrivals. rewrite filter_app, app_length. now destruct e. Qed.
Lemma subscribed_snoc : forall i l e, subscribed i (l ++ [e]) = subscribed i l || match e with TSub j => j =? i | _ => false end.
Proof. intros. unfold subscribed. rewrite existsb_app. cbn. now rewrite orb_false_r. Qed.
Lemma completed_snoc : forall i l e, completed i (l ++ [e]) = completed i l || match e with TIn j Cmp => j =? i | _ => false end.
Proof. intros. unfold completed. rewrite existsb_app. cbn. now rewrite orb_false_r. Qed.
Lemma ended_snoc : forall i l e, ended i (l ++ [e]) = ended i l || match e with TEnd j => j =? i | _ => false end.
Proof. intros. unfold ended. rewrite existsb_app. cbn. now rewrite orb_false_r. Qed.
Lemma outer_completed_snoc : forall l e, outer_completed (l ++ [e]) = outer_completed l || match e with TUp Cmp => true | _ => false end.
Proof. intros. unfold outer_completed. rewrite existsb_app. cbn. now rewrite orb_false_r. Qed.
Lemma outer_unsubscribed_snoc : forall l e, outer_unsubscribed (l ++ [e]) = outer_unsubscribed l || match e with TUp Uns => true | _ => false end.
Proof. intros. unfold outer_unsubscribed. rewrite existsb_app. cbn. now rewrite orb_false_r. Qed.

Lemma open_nil : open down [].
Proof. intros os c os' H. destruct os; discriminate. Qed.
Lemma open_same : forall l l', outs l = outs l' -> open down l -> open down l'.
Proof. intros l l' H K os c os' Q. apply (K os c os'). congruence. Qed.
Lemma open_out : forall l c, open down (l ++ [TOut c]) <-> open down l /\ is_closing c = false /\ down (outs l ++ [c]) = false.
Proof.
  intros l c. split.
  - intros H. rewrite <- and_assoc. split.
    + split.
      * intros os x os' K. destruct (H os x (os' ++ [c])) as [H1 H2]; auto. rewrite outs_snoc, K, <- app_assoc. reflexivity.
      * destruct (H (outs l) c []) as [[b ->] _]; auto. now rewrite outs_snoc.
    + destruct (H (outs l) c []) as [_ H2]; auto. now rewrite outs_snoc.
  - intros (H1 & H2 & H3) os x os' K. rewrite outs_snoc in K. destruct os' as [|y os'] using rev_ind.
    + apply app_inj_tail in K. destruct K as [<- <-]. split; auto. destruct c; try discriminate. eauto.
    + rewrite app_comm_cons, app_assoc in K. apply app_inj_tail in K. destruct K as [K ->]. eapply H1; eauto.
Qed.

Lemma always_nil : forall good, @always A E good [].
Proof. intros good p e s H. destruct p; discriminate. Qed.
Lemma always_snoc : forall (good : list ev -> ev -> Prop) l e, always good l -> good l e -> always good (l ++ [e]).
Proof.
  intros good l e H K p x s Hp. destruct s as [|y s] using rev_ind.
  - apply app_inj_tail in Hp. destruct Hp as [-> ->]. auto.
  - rewrite app_comm_cons, app_assoc in Hp. apply app_inj_tail in Hp. destruct Hp as [Hp ->]. eapply H; eauto.
Qed.
End Trace.
Global Hint Rewrite outs_snoc arrivals_snoc subscribed_snoc completed_snoc ended_snoc outer_completed_snoc outer_unsubscribed_snoc : snoc.

(** *** Runs. *)
Section Run.
Variables A E : Type.
Variable down : list (ncall A E) -> bool.
Variable k : kind.
Notation st := (HoModel.st A E).
Notation cmd := (HoModel.cmd A E).

Lemma drive_inv : forall P : list cmd -> st -> Prop,
  (forall c K s s' K1, P (c :: K) s -> step down k c s = Some (s', K1) -> P (K1 ++ K) s') ->
  forall fuel K s s', P K s -> drive down k fuel K s = Fine s' -> P [] s'.
Proof.
  intros P HP. induction fuel as [|n IH]; intros K s s' H R; destruct K as [|c K]; cbn in R; try discriminate; try (injection R as <-; auto; fail).
  destruct (step down k c s) as [[s1 K1]|] eqn:Es; [|discriminate]. eapply IH; [|exact R]. eauto.
Qed.
Lemma drive_fine : forall P : list cmd -> st -> Prop,
  (forall c K s, P (c :: K) s -> step down k c s <> None) ->
  (forall c K s s' K1, P (c :: K) s -> step down k c s = Some (s', K1) -> P (K1 ++ K) s') ->
  forall fuel K s, P K s -> drive down k fuel K s <> Panic.
Proof.
  intros P H0 HP. induction fuel as [|n IH]; intros K s H; destruct K as [|c K]; cbn; try discriminate.
  destruct (step down k c s) as [[s1 K1]|] eqn:Es; eauto. intros _. eapply H0; eauto.
Qed.
Lemma flatten_inv : forall (ok : act A E -> st -> Prop) (P : list cmd -> st -> Prop),
  (forall c K s s' K1, P (c :: K) s -> step down k c s = Some (s', K1) -> P (K1 ++ K) s') ->
  (forall a s s' K1, P [] s -> ok a s -> perform k a s = Some (s', K1) -> P K1 s') ->
  forall fuel h s s', P [] s -> (forall a s, In a h -> P [] s -> ok a s) -> flatten down k fuel h s = Fine s' -> P [] s'.
Proof.
  intros ok P HP HA fuel h. induction h as [|a h IH]; intros s s' H Ho R; cbn in R; [injection R as <-; auto|].
  destruct (perform k a s) as [[s1 K1]|] eqn:Ep; [|discriminate].
  destruct (drive down k fuel K1 s1) as [s2| |] eqn:Ed; try discriminate.
  eapply IH; [|intros; apply Ho; [now right|auto]|exact R].
  eapply (@drive_inv P HP); [|exact Ed]. eapply HA; eauto. apply Ho; auto. now left.
Qed.
End Run.

(** *** All three: values and errors are passed on at once. *)
Section Paid.
Variables A E : Type.
Variable down : list (ncall A E) -> bool.
Variable k : kind.
Notation st := (HoModel.st A E).
Notation cmd := (HoModel.cmd A E).
Notation ev := (HoModel.ev A E).
Implicit Types (s : st) (K : list cmd).

Definition tells c K : Prop := exists K', K = KTell c :: K'.
Record G K s : Prop := {
  g_out : t_out (s_told s) = outs (s_tr s);
  g_shut : t_shut (s_told s) = false <-> open down (s_tr s);
  g_paid : forall p e r c, s_tr s = p ++ e :: r -> open down p -> owed e = Some c ->
             (exists r', r = TOut c :: r') \/ (r = [] /\ tells c K);
  g_obey : outer_unsubscribed (s_tr s) = true -> t_shut (s_told s) = true \/ In (KTell Uns) K
}.

Definition quiet_ev (e : ev) : bool := match e with TOut _ | TUp Uns => false | _ => true end.
Lemma G_same : forall K K' s s', s_told s' = s_told s -> s_tr s' = s_tr s ->
  (forall c, tells c K -> False) -> (In (KTell Uns) K -> In (KTell Uns) K') -> G K s -> G K' s'.
Proof.
  intros K K' s s' H1 H2 H3 H4 []. constructor; rewrite ?H1, ?H2; auto.
  - intros p e r c Hp Ho Hw. destruct (g_paid0 p e r c Hp Ho Hw) as [Z|[_ Z]]; auto. destruct (H3 _ Z).
  - intros Hu. destruct (g_obey0 Hu); auto.
Qed.
Lemma G_log : forall K K' s s' e, s_told s' = s_told s -> s_tr s' = s_tr s ++ [e] -> quiet_ev e = true ->
  (forall c, tells c K -> False) -> (forall c, owed e = Some c -> t_shut (s_told s) = false -> tells c K') ->
  (In (KTell Uns) K -> In (KTell Uns) K') -> G K s -> G K' s'.
Proof.
  intros K K' s s' e H1 H2 H0 H3 H5 H4 [].
  assert (Hout : outs (s_tr s ++ [e]) = outs (s_tr s)) by (rewrite outs_snoc; destruct e; try discriminate; now rewrite app_nil_r).
  constructor; rewrite ?H1, ?H2.
  - congruence.
  - rewrite g_shut0. split; apply open_same; congruence.
  - intros p x r c Hp Ho Hw. destruct r as [|y r] using rev_ind.
    + apply app_inj_tail in Hp. destruct Hp as [<- <-]. right. split; auto. apply H5; auto. now apply g_shut0.
    + clear IHr. rewrite app_comm_cons, app_assoc in Hp. apply app_inj_tail in Hp. destruct Hp as [Hp <-].
      destruct (g_paid0 p x r c Hp Ho Hw) as [[r' ->]|[_ Z]]; [|destruct (H3 _ Z)]. left. exists (r' ++ [e]). reflexivity.
  - rewrite outer_unsubscribed_snoc. replace (match e with TUp Uns => true | _ => false end) with false by (destruct e as [|[]| | | |]; try discriminate; auto).
    rewrite orb_false_r. intros Hu. destruct (g_obey0 Hu); auto.
Qed.

Lemma tell_out : forall m (t : told A E), t_shut t = false -> t_out (tell down m t) = t_out t ++ [m] /\
  t_shut (tell down m t) = is_closing m || down (t_out t ++ [m]).
Proof. intros m t H. unfold tell. rewrite H. cbn. destruct m; auto. Qed.

Lemma no_tell : forall c K, (forall m, c <> KTell m) -> forall x, tells x (c :: K) -> False.
Proof. intros c K H x [K' Q]. injection Q as Q _. now apply H in Q. Qed.

Ltac pop := match goal with H : G (_ :: _) _ |- _ => apply (@G_same _ _ _ _ eq_refl eq_refl) in H; [exact H|now apply no_tell|] end.
Lemma in_pop : forall c K K1, (forall m, c <> KTell m) -> In (KTell Uns) (c :: K) -> In (KTell Uns) (K1 ++ K).
Proof. intros c K K1 H [Q|Q]; [now apply H in Q|]. apply in_or_app. auto. Qed.

Lemma step_G : forall c K s s' K1, G (c :: K) s -> step down k c s = Some (s', K1) -> G (K1 ++ K) s'.
Proof.
  intros c K s s' K1 H R.
  assert (Same : (forall m, c <> KTell m) -> s_told s' = s_told s -> s_tr s' = s_tr s -> G (K1 ++ K) s').
  { intros Hc H1 H2. revert H. apply G_same; auto; [now apply no_tell|now apply in_pop]. }
  assert (Log : forall e, (forall m, c <> KTell m) -> s_told s' = s_told s -> s_tr s' = s_tr s ++ [e] -> quiet_ev e = true ->
    (forall c, owed e = Some c -> tells c (K1 ++ K)) -> G (K1 ++ K) s').
  { intros e Hc H1 H2 H3 H4. revert H. apply (@G_log _ _ _ _ e); auto; [now apply no_tell|now apply in_pop]. }
  assert (Un : forall i, (forall m, c <> KTell m) -> do_unsub i s = Some (s', K1) -> G (K1 ++ K) s').
  { intros i Hc Hu. unfold do_unsub in Hu. destruct (i_closed (s_inner s i)); [inversion Hu; subst; apply Same; auto|].
    destruct (minus_one (s_nu s)); [|discriminate]. destruct (if i_completed _ then _ else _); [|discriminate].
    inversion Hu; subst. apply (Log (TEnd i)); auto. discriminate. }
  destruct c as [m| | | |i l|i m|i|i|i|i|i| |i| |i]; cbn [HoModel.step] in R.
  - destruct (t_shut (s_told s)) eqn:Es.
    + injection R as <- <-. cbn [app]. destruct H. constructor; auto.
      intros p e r c Hp Ho Hw. destruct (g_paid0 p e r c Hp Ho Hw) as [Z|[Z _]]; auto. subst r. exfalso.
      assert (Q : open down (s_tr s)). { rewrite Hp. revert Ho. apply open_same. rewrite outs_snoc. destruct e; try discriminate; now rewrite app_nil_r. }
      apply g_shut0 in Q. congruence.
    + set (s1 := log (with_told s (tell down m (s_told s))) (TOut m)) in *.
      assert (Z : s' = s1 /\ forall c, In c K1 -> c = KTear).
      { destruct k; [destruct (t_shut (s_told s1))| |]; inversion R; subst; split; auto; cbn; intuition. }
      destruct Z as [-> Z]. destruct (tell_out m (s_told s) Es) as [T1 T2]. destruct H. constructor; cbn [s1 s_told s_tr log with_told].
      * rewrite outs_snoc, T1. congruence.
      * rewrite open_out, T2, <- g_out0, orb_false_iff. intuition.
      * intros p e r c Hp Ho Hw. destruct r as [|y r] using rev_ind.
        -- apply app_inj_tail in Hp. destruct Hp as [<- <-]. discriminate.
        -- clear IHr. rewrite app_comm_cons, app_assoc in Hp. apply app_inj_tail in Hp. destruct Hp as [Hp <-].
           destruct (g_paid0 p e r c Hp Ho Hw) as [[r' ->]|[-> [K' Q]]]; left; [exists (r' ++ [TOut m]); reflexivity|].
           injection Q as -> _. exists []. reflexivity.
      * rewrite outer_unsubscribed_snoc, orb_false_r, T2. intros Hu. destruct (g_obey0 Hu) as [Q|[Q|Q]]; [congruence| |].
        -- injection Q as ->. auto.
        -- right. apply in_or_app. auto.
  - destruct (s_torn s); [|destruct k]; inversion R; subst; apply Same; easy.
  - inversion R; subst; apply Same; easy.
  - destruct (s_queue s) as [|[i l] q]; inversion R; subst; apply Same; easy.
  - inversion R; subst. apply (Log (TSub i)); try easy. destruct k; easy. destruct k; easy.
  - destruct (_ || _); [inversion R; subst; apply Same; easy|]. destruct m as [a|e| |].
    + inversion R; subst. apply (Log (TIn i (Nxt a))); try easy. intros c [= <-]. eexists. reflexivity.
    + destruct (set_error _); [|discriminate]. inversion R; subst. apply (Log (TIn i (Err e))); try easy. intros c [= <-]. eexists. reflexivity.
    + inversion R; subst. apply (Log (TIn i Cmp)); easy.
    + inversion R; subst. apply (Log (TIn i Uns)); easy.
  - destruct (t_shut _); inversion R; subst; apply Same; easy.
  - destruct (s_nc s); [discriminate|]. destruct (can_downstream_complete _); [destruct (set_complete _); [|discriminate]|]; inversion R; subst; apply Same; easy.
  - apply (Un i); easy.
  - destruct (existsb _ _); [inversion R; subst; apply Same; easy|]. apply (Un i); easy.
  - destruct k; inversion R; subst; apply Same; easy.
  - inversion R; subst; apply Same; easy.
  - destruct (i_closed _); [|destruct k; [destruct (nth_error _ _)| |]]; inversion R; subst; apply Same; easy.
  - destruct (_ && _); inversion R; subst; apply Same; easy.
  - inversion R; subst; apply Same; easy.
Qed.

Lemma perform_G : forall a s s' K, G [] s -> perform k a s = Some (s', K) -> G K s'.
Proof.
  intros a s s' K H R.
  assert (NT : forall c, @tells c [] -> False) by (intros c [K' Q]; discriminate).
  assert (Same : s_told s' = s_told s -> s_tr s' = s_tr s -> G K s').
  { intros H1 H2. revert H. apply G_same; auto. intros []. }
  assert (Log : forall e, s_told s' = s_told s -> s_tr s' = s_tr s ++ [e] -> quiet_ev e = true ->
    (forall c, owed e = Some c -> tells c K) -> G K s').
  { intros e H1 H2 H3 H4. revert H. apply (@G_log _ _ _ _ e); auto. intros []. }
  destruct a as [l|e| | |i c]; cbn [perform] in R.
  - destruct (is_torn k s); [inversion R; subst; auto|]. apply (Log (TArrive (s_arrived s))); try easy.
    + destruct k; [destruct (_ <? _)| |destruct (_ =? _)]; inversion R; subst; easy.
    + destruct k; [destruct (_ <? _)| |destruct (_ =? _)]; inversion R; subst; easy.
  - destruct (is_torn k s); [inversion R; subst; auto|]. destruct (set_error _); [|discriminate].
    apply (Log (TUp (Err e))); try easy.
    + destruct k; inversion R; subst; easy.
    + destruct k; inversion R; subst; easy.
    + intros c [= <-]. destruct k; inversion R; subst; eexists; reflexivity.
  - destruct (is_torn k s); [inversion R; subst; auto|]. destruct (set_complete _); [|discriminate]. destruct (set_unsubscribe _); [|discriminate].
    apply (Log (TUp Cmp)); try easy.
    + destruct (can_downstream_complete _); [destruct k|]; inversion R; subst; easy.
    + destruct (can_downstream_complete _); [destruct k|]; inversion R; subst; easy.
  - destruct (is_torn k s) eqn:Et; [inversion R; subst; auto|].
    assert (Q : s_told s' = s_told s /\ s_tr s' = s_tr s ++ [TUp Uns] /\ In (KTell Uns) K).
    { unfold unsubscribe in R. replace (is_torn k (log s (TUp Uns))) with false in R by (symmetry; rewrite <- Et; now destruct k).
      destruct k; inversion R; subst; cbn; auto. repeat split; auto. apply in_or_app. right. cbn. auto. }
    destruct Q as (Q1 & Q2 & Q3).
    assert (Hout : outs (s_tr s ++ [TUp Uns]) = outs (s_tr s)) by (now rewrite outs_snoc, app_nil_r).
    destruct H. constructor; rewrite ?Q1, ?Q2; auto.
    + congruence.
    + rewrite g_shut0. split; apply open_same; congruence.
    + intros p x r c Hp Ho Hw. destruct r as [|y r] using rev_ind.
      * apply app_inj_tail in Hp. destruct Hp as [<- <-]. discriminate.
      * clear IHr. rewrite app_comm_cons, app_assoc in Hp. apply app_inj_tail in Hp. destruct Hp as [Hp <-].
        destruct (g_paid0 p x r c Hp Ho Hw) as [[r' ->]|[_ Z]]; [|destruct (NT _ Z)]. left. exists (r' ++ [TUp Uns]). reflexivity.
  - destruct (_ || _); inversion R; subst; apply Same; easy.
Qed.

Lemma init_G : G [] init.
Proof. constructor; cbn; auto. - split; auto using open_nil. - intros p e r c H. destruct p; discriminate. Qed.
Lemma flatten_G : forall fuel h s, flatten down k fuel h init = Fine s -> G [] s.
Proof.
  intros fuel h s R. eapply (@flatten_inv A E down k (fun _ _ => True) G); eauto using init_G.
  - apply step_G.
  - intros a s0 s1 K1 H _ Hp. eapply perform_G; eauto.
Qed.

Lemma passed_on : forall fuel h s, flatten down k fuel h init = Fine s -> paid down (s_tr s).
Proof.
  intros fuel h s R p e r c Hp Ho Hw. destruct (g_paid (flatten_G _ _ R) e r Hp Ho Hw) as [Z|[_ [K' Z]]]; auto. discriminate.
Qed.
Lemma obeyed : forall fuel h s, flatten down k fuel h init = Fine s -> obeys down (s_tr s).
Proof.
  intros fuel h s R Hu Ho. pose proof (flatten_G _ _ R) as H. destruct (g_obey H Hu) as [Z|[]].
  apply (g_shut H) in Ho. congruence.
Qed.
End Paid.
