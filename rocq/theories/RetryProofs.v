(** Proofs about [RetryModel]. *)
From Verif Require Import Base SubscrModel LifeModel CombModel RetryModel RetrySpec.
Set Implicit Arguments.

Section Proofs.
Variables A E : Type.
Notation call := (ncall A E).
Notation ev := (ev A E).
Notation st := (st A E).
Variable down : list call -> bool.
Variable sync : nat -> list call.
Variable live : nat -> bool.
Variable max : nat.
Notation open := (open down).
Notation tell_d := (tell_d down).
Notation end_sub := (end_sub down).
Notation end_last := (end_last down).
Notation outer_unsubscribe := (outer_unsubscribe down).
Notation outer_add := (outer_add down).
Notation finish := (finish down).
Notation sub_unsubscribe := (sub_unsubscribe down).
Notation easy_call := (easy_call down).
Notation easy_calls := (easy_calls down).
Notation attempt := (attempt down sync live).
Notation immediate := (immediate down sync live max).
Notation again := (again down sync live max).
Notation error := (error down sync live max).
Notation late_call := (late_call down sync live max).
Notation perform := (perform down sync live max).
Notation run := (run down sync live max).

(** *** Traces. *)
Lemma outs_app : forall l m : list ev, outs (l ++ m) = outs l ++ outs m.
Proof. intros. apply flat_map_app. Qed.
Lemma attempts_app : forall l m : list ev, attempts (l ++ m) = attempts l + attempts m.
Proof. intros. unfold attempts. now rewrite filter_app, app_length. Qed.
Lemma failed_app : forall i (l m : list ev), failed i l -> failed i (l ++ m).
Proof. intros i l m (x & H). exists x. apply in_or_app. auto. Qed.
Lemma failed_snoc : forall i (l : list ev) e, failed i (l ++ [e]) -> failed i l \/ exists x, e = TIn i (Err x).
Proof. intros i l e (x & H). apply in_app_or in H. destruct H as [H|[H|[]]]; [left; now exists x|right; now exists x]. Qed.
Lemma open_same : forall l m : list ev, outs l = outs m -> open l -> open m.
Proof. intros l m H O os c os' K. eapply O. rewrite H. exact K. Qed.
Lemma snoc_app : forall X (l p q : list X) x e, l ++ [x] = p ++ e :: q -> (q = [] /\ l = p /\ x = e) \/ exists q', q = q' ++ [x] /\ l = p ++ e :: q'.
Proof.
  intros X l p q x e H. destruct q as [|y q] using rev_ind.
  - left. apply app_inj_tail in H as [-> ->]. auto.
  - right. exists q. rewrite app_comm_cons, app_assoc in H. apply app_inj_tail in H as [-> ->]. auto.
Qed.
Lemma open_tell : forall (l : list ev) c, open l -> is_closing c = false -> down (outs l ++ [c]) = false -> open (l ++ [TOut c]).
Proof.
  intros l c O C D os x os' H. rewrite outs_app in H. cbn in H. apply snoc_app in H as [(-> & <- & <-)|(q & -> & H)].
  - split; auto. destruct c; try discriminate. eauto.
  - exact (O _ _ _ H).
Qed.
Lemma open_told : forall (l : list ev) c, open (l ++ [TOut c]) -> open l /\ is_closing c = false /\ down (outs l ++ [c]) = false.
Proof.
  intros l c O. assert (H : outs (l ++ [TOut c]) = outs l ++ [c]) by (now rewrite outs_app).
  destruct (O (outs l) c [] H) as [(b & ->) D]. split; [|auto]. intros os x os' K. apply (O os x (os' ++ [Nxt b])). rewrite H, K, <- app_assoc. reflexivity.
Qed.

Definition dues (p : list ev) (e : ev) : Prop := forall q x c, p = q ++ [x] -> open q -> owed x = Some c -> e = TOut c.
Definition good (p : list ev) (e : ev) : Prop := numbered p e /\ relays down max p e /\ obeys p e /\ ends down p e /\ dues p e.
Definition settled (tr : list ev) : Prop := forall q x c, tr = q ++ [x] -> open q -> owed x = Some c -> False.
Record TT (t : told A E) (tr : list ev) (n : nat) : Prop := mkTT {
  t_g : always good tr;
  t_o : t_out t = outs tr;
  t_s : t_shut t = false <-> open tr;
  t_n : n = attempts tr;
  t_f : forall i, failed i tr -> i < n;
  t_b : forall i, S i < n -> failed i tr }.
Definition T (s : st) : Prop := TT (r_told s) (r_tr s) (r_n s).
Definition K (s : st) : Prop := T s /\ settled (r_tr s).

Lemma always_snoc : forall g (l : list ev) e, always g l -> g l e -> always g (l ++ [e]).
Proof. intros g l e H G p x q K. apply snoc_app in K as [(-> & <- & <-)|(q' & -> & ->)]; auto. eapply H. reflexivity. Qed.
Lemma settled_dues : forall tr e, settled tr -> dues tr e.
Proof. intros tr e H q x c K O W. destruct (H q x c K O W). Qed.
Lemma settled_snoc : forall (tr : list ev) e, owed e = None -> settled (tr ++ [e]).
Proof. intros tr e H q x c K O W. apply app_inj_tail in K as [-> ->]. congruence. Qed.

(** Events that are not told. *)
Lemma T_log : forall s e, T s -> good (r_tr s) e -> (match e with TSub _ | TOut _ => False | _ => True end) -> T (log s e).
Proof.
  intros s e [G O S N F B] H Q. constructor; cbn [log r_told r_tr r_n].
  - apply always_snoc; auto.
  - rewrite outs_app, O. destruct e; try easy; cbn; now rewrite app_nil_r.
  - rewrite S. split; apply open_same; rewrite outs_app; destruct e; try easy; cbn; now rewrite app_nil_r.
  - rewrite attempts_app, <- N. destruct e; try easy; cbn; lia.
  - intros i K. apply failed_snoc in K as [K|(x & ->)]; auto. destruct H as (H & _). cbn in H. lia.
  - intros i K. apply failed_app. auto.
Qed.
Lemma K_log : forall s e, K s -> numbered (r_tr s) e -> obeys (r_tr s) e -> ends down (r_tr s) e -> owed e = None ->
  (match e with TSub _ | TOut _ => False | _ => True end) -> K (log s e).
Proof.
  intros s e [H W] H1 H2 H3 H4 Q. split; [|cbn; now apply settled_snoc]. apply T_log; auto. refine (conj H1 (conj _ (conj H2 (conj H3 _)))); auto using settled_dues. now destruct e.
Qed.

Lemma tell_shut : forall c s, shut s = true -> tell_d c s = s.
Proof. intros c s H. unfold RetryModel.tell_d. now rewrite H. Qed.
Lemma tell_open : forall c s, shut s = false -> tell_d c s = log (with_told s (tell down c (r_told s))) (TOut c).
Proof. intros c s H. unfold RetryModel.tell_d. now rewrite H. Qed.
Lemma tell_keeps : forall c s, shut s = true -> shut (tell_d c s) = true.
Proof. intros c s H. now rewrite tell_shut. Qed.
Lemma tell_closes : forall c s, is_closing c = true -> shut (tell_d c s) = true.
Proof. intros c s H. destruct (shut s) eqn:Q; [now apply tell_keeps|]. rewrite tell_open by auto. unfold shut, tell. cbn. rewrite H, orb_true_r. auto. Qed.
Lemma tell_outer : forall c s, r_outer (tell_d c s) = r_outer s. Proof. intros. unfold RetryModel.tell_d. now destruct (shut s). Qed.
Lemma tell_added : forall c s, r_added (tell_d c s) = r_added s. Proof. intros. unfold RetryModel.tell_d. now destruct (shut s). Qed.
Lemma tell_last : forall c s, r_last (tell_d c s) = r_last s. Proof. intros. unfold RetryModel.tell_d. now destruct (shut s). Qed.
Lemma tell_caught : forall c s, r_caught (tell_d c s) = r_caught s. Proof. intros. unfold RetryModel.tell_d. now destruct (shut s). Qed.
Lemma tell_n : forall c s, r_n (tell_d c s) = r_n s. Proof. intros. unfold RetryModel.tell_d. now destruct (shut s). Qed.
Lemma tell_retries : forall c s, r_retries (tell_d c s) = r_retries s. Proof. intros. unfold RetryModel.tell_d. now destruct (shut s). Qed.
Lemma tell_fin : forall c s, r_fin (tell_d c s) = r_fin s. Proof. intros. unfold RetryModel.tell_d. now destruct (shut s). Qed.
Lemma tell_ropen : forall c s, r_open (tell_d c s) = r_open s. Proof. intros. unfold RetryModel.tell_d. now destruct (shut s). Qed.
Lemma tell_busy : forall c s, r_busy (tell_d c s) = r_busy s. Proof. intros. unfold RetryModel.tell_d. now destruct (shut s). Qed.
Lemma tell_in : forall c s e, In e (r_tr (tell_d c s)) -> In e (r_tr s) \/ e = TOut c.
Proof. intros c s e. unfold RetryModel.tell_d. destruct (shut s); auto. cbn. rewrite in_app_iff. cbn. intuition. Qed.
Lemma tell_has : forall c s e, In e (r_tr s) -> In e (r_tr (tell_d c s)).
Proof. intros c s e. unfold RetryModel.tell_d. destruct (shut s); auto. cbn. rewrite in_app_iff. auto. Qed.
Lemma tell_failed : forall c s i, failed i (r_tr (tell_d c s)) <-> failed i (r_tr s).
Proof. intros c s i. split; intros (x & H); exists x; [apply tell_in in H as [H|H]; [auto|discriminate]|now apply tell_has]. Qed.
Lemma tell_user : forall c s, In TUser (r_tr (tell_d c s)) <-> In TUser (r_tr s).
Proof. intros c s. split; intros H; [apply tell_in in H as [H|H]; [auto|discriminate]|now apply tell_has]. Qed.

Lemma T_tell : forall c s, T s -> (shut s = false -> good (r_tr s) (TOut c)) -> T (tell_d c s).
Proof.
  intros c s H G. destruct (shut s) eqn:Q; [now rewrite tell_shut|]. rewrite tell_open by auto. specialize (G eq_refl). destruct H as [H1 O S N F B]. constructor; cbn [log with_told r_told r_tr r_n].
  - apply always_snoc; auto.
  - unfold tell. cbn [t_out]. rewrite outs_app, O. auto.
  - unfold shut in Q. unfold tell. cbn [t_shut]. rewrite Q, O. cbn [orb]. split.
    + intros D. apply orb_false_elim in D as [D1 D2]. apply open_tell; auto. now apply S.
    + intros D. apply open_told in D as (_ & D1 & D2). now rewrite D1, D2.
  - rewrite attempts_app, <- N. cbn. lia.
  - intros i K. apply failed_snoc in K as [K|(x & K)]; [auto|discriminate].
  - intros i K. apply failed_app. auto.
Qed.
Lemma K_tell : forall c s, K s -> (shut s = false -> relays down max (r_tr s) (TOut c) /\ obeys (r_tr s) (TOut c)) -> K (tell_d c s).
Proof.
  intros c s [H W] G. split.
  - apply T_tell; auto. intros Q. destruct (G Q) as [R1 R2]. refine (conj I (conj R1 (conj R2 (conj I _)))). now apply settled_dues.
  - destruct (shut s) eqn:Q; [now rewrite tell_shut|]. rewrite tell_open by auto. now apply settled_snoc.
Qed.
Lemma K_hear : forall j c s, K s -> j < r_n s -> ~ In TUser (r_tr s) -> owed (TIn j c) = Some c -> K (tell_d c (log s (TIn j c))).
Proof.
  intros j c s [H W] L U Q. assert (HL : T (log s (TIn j c))).
  { apply T_log; [auto| |exact I]. refine (conj _ (conj I (conj U (conj I _)))); [|now apply settled_dues]. cbn. now rewrite <- (t_n H). }
  destruct (shut s) eqn:S.
  - rewrite tell_shut by auto. split; auto. intros q x d E' O _. apply app_inj_tail in E' as [<- <-]. apply (t_s H) in O. unfold shut in S. congruence.
  - assert (S' : shut (log s (TIn j c)) = false) by auto. rewrite tell_open by auto. split; [|now apply settled_snoc].
    rewrite <- tell_open by auto. apply T_tell; auto. intros _. assert (O : open (r_tr s)) by (now apply (t_s H)).
    assert (O' : open (r_tr s ++ [TIn j c])) by (revert O; apply open_same; rewrite outs_app; cbn; now rewrite app_nil_r).
    refine (conj I (conj (conj O' _) (conj _ (conj I _)))).
    + destruct c; try discriminate; exists (r_tr s); eexists; split; reflexivity.
    + intros Z. apply in_app_or in Z as [Z|[Z|[]]]; [destruct (U Z)|discriminate].
    + intros q x d E' _ W'. apply app_inj_tail in E' as [<- <-]. cbn in W', Q. destruct c; congruence.
Qed.
Lemma K_same : forall s s', K s -> r_told s' = r_told s -> r_tr s' = r_tr s -> r_n s' = r_n s -> K s'.
Proof. intros s s' H E1 E2 E3. unfold K, T in *. now rewrite E1, E2, E3. Qed.
Lemma K_heard : forall j c s s', K s -> j < r_n s -> ~ In TUser (r_tr s) -> owed (TIn j c) = Some c ->
  r_told s' = r_told s -> r_tr s' = r_tr s ++ [TIn j c] -> r_n s' = r_n s -> K (tell_d c s').
Proof.
  intros j c s s' H L U Q E1 E2 E3. apply K_same with (s := tell_d c (log s (TIn j c))); [now apply K_hear| | |]; unfold RetryModel.tell_d, shut; cbn [log r_told];
  rewrite E1; destruct (t_shut (r_told s)); cbn [log with_told r_told r_tr r_n]; now rewrite ?E2, ?E1.
Qed.

(** *** During a subscription nothing is open. *)
Definition nobody (s : st) : Prop := forall i, r_open s i = false.
Record Mid (j : nat) (s : st) : Prop := mkMid {
  m_k : K s;
  m_u : ~ In TUser (r_tr s);
  m_o : r_outer s = true -> shut s = true;
  m_c : nobody s;
  m_l : r_last s = None;
  m_n : r_n s = S j;
  m_f : r_fin s j = None;
  m_cn : r_caught s = None -> ~ failed j (r_tr s);
  m_cs : forall e, r_caught s = Some e -> In (TIn j (Err e)) (r_tr s) }.
Record frame (j : nat) (s s' : st) : Prop := mkFrame {
  f_r : r_retries s' = r_retries s;
  f_b : r_busy s' = r_busy s;
  f_a : r_added s' = r_added s;
  f_f : forall i, i <> j -> r_fin s' i = r_fin s i;
  f_t : exists l, r_tr s' = r_tr s ++ l }.
Lemma frame_refl : forall j s, frame j s s.
Proof. intros j s. constructor; auto. exists []. now rewrite app_nil_r. Qed.
Lemma frame_trans : forall j s1 s2 s3, frame j s1 s2 -> frame j s2 s3 -> frame j s1 s3.
Proof.
  intros j s1 s2 s3 [A1 A2 A3 A4 (l & A5)] [B1 B2 B3 B4 (m & B5)]. constructor; try congruence.
  - intros i H. rewrite B4, A4; auto.
  - exists (l ++ m). now rewrite B5, A5, app_assoc.
Qed.
Lemma tell_tr : forall c s, exists l, r_tr (tell_d c s) = r_tr s ++ l.
Proof. intros c s. unfold RetryModel.tell_d. destruct (shut s); [exists []; now rewrite app_nil_r|]. now exists [TOut c]. Qed.
Lemma frame_tell : forall j c s, frame j s (tell_d c s).
Proof. intros j c s. constructor; auto using tell_retries, tell_busy, tell_added, tell_tr. intros i _. now rewrite tell_fin. Qed.
Lemma put_same : forall X (f : nat -> X) j v, put f j v j = v.
Proof. intros. unfold put. now rewrite Nat.eqb_refl. Qed.
Lemma put_other : forall X (f : nat -> X) j v i, i <> j -> put f j v i = f i.
Proof. intros. unfold put. apply Nat.eqb_neq in H. now rewrite H. Qed.

(** Unsubscribing while nothing is open. *)
Lemma outer_none : forall s, r_last s = None -> outer_unsubscribe s = if r_outer s then s else with_outer s true.
Proof. intros s H. unfold RetryModel.outer_unsubscribe, RetryModel.end_last. cbn. rewrite H. destruct (r_outer s), (r_added s); auto. Qed.
Definition close (s : st) : st := if r_outer s then s else with_outer s true.

Lemma user_snoc : forall (tr : list ev) x, ~ In TUser tr -> x <> TUser -> ~ In TUser (tr ++ [x]).
Proof. intros tr x U X Z. apply in_app_or in Z as [Z|[Z|[]]]; auto. Qed.
Definition fin0 (s : st) : st := tell_d Uns (outer_unsubscribe s).
Lemma Mid_fin0 : forall j s, Mid j s -> (shut s = false -> relays down max (r_tr s) (TOut Uns)) -> Mid j (fin0 s) /\ frame j s (fin0 s).
Proof.
  intros j s [Kk U O C L N F Cn Cs] R. unfold fin0. rewrite outer_none by auto.
  set (s1 := if r_outer s then _ else _).
  assert (E1 : r_told s1 = r_told s /\ r_tr s1 = r_tr s /\ r_n s1 = r_n s /\ r_caught s1 = r_caught s /\ r_open s1 = r_open s /\ r_last s1 = None /\ r_fin s1 = r_fin s /\ r_retries s1 = r_retries s /\ r_busy s1 = r_busy s /\ r_added s1 = r_added s).
  { unfold s1. cbn. destruct (r_outer s); cbn; repeat split; auto. }
  destruct E1 as (E1 & E2 & E3 & E4 & E5 & E6 & E7 & E8 & E9 & E10). clearbody s1.
  assert (K1 : K s1) by (eapply K_same; eauto).
  split.
  - constructor.
    + apply K_tell; auto. unfold shut. rewrite E1, E2. intros Z. split; auto. cbn. auto.
    + rewrite tell_user, E2. auto.
    + intros _. now apply tell_closes.
    + intros i. rewrite tell_ropen, E5. auto.
    + now rewrite tell_last.
    + now rewrite tell_n, E3.
    + now rewrite tell_fin, E7.
    + rewrite tell_caught, tell_failed, E2, E4. auto.
    + intros e. rewrite tell_caught, E4. intros Z. apply tell_has. rewrite E2. auto.
  - apply frame_trans with s1; [|apply frame_tell]. constructor; auto.
    + intros i Hi. now rewrite E7.
    + exists []. now rewrite E2, app_nil_r.
Qed.
Lemma frame_fin : forall j s v, frame j s (with_fin s j v).
Proof. intros j s v. constructor; auto; cbn. - intros i H. now apply put_other. - exists []. now rewrite app_nil_r. Qed.
Lemma Mid_fin : forall j s, Mid j s -> Mid j (with_fin s j None).
Proof. intros j s []. constructor; auto. apply put_same. Qed.
Lemma Mid_finish : forall j s, Mid j s -> (shut s = false -> relays down max (r_tr s) (TOut Uns)) ->
  Mid j (finish j s) /\ frame j s (finish j s).
Proof.
  intros j s M R. unfold RetryModel.finish. rewrite (m_f M). destruct (@Mid_fin0 j (with_fin s j None) (Mid_fin M) R) as [H1 H2].
  split; auto. eapply frame_trans; [apply frame_fin|exact H2].
Qed.
Lemma Mid_unsubscribe : forall j s, Mid j s -> (shut s = false -> relays down max (r_tr s) (TOut Uns)) ->
  Mid j (sub_unsubscribe j s) /\ frame j s (sub_unsubscribe j s).
Proof. intros j s M R. unfold RetryModel.sub_unsubscribe. destruct (_ && _); [now apply Mid_finish|auto using frame_refl]. Qed.
Lemma shut_open : forall s, K s -> shut s = false -> open (r_tr s).
Proof. intros s [H _] S. now apply (t_s H). Qed.
Lemma open_shut : forall s, K s -> shut s = true -> ~ open (r_tr s).
Proof. intros s [H _] S O. apply (t_s H) in O. unfold shut in S. congruence. Qed.

Lemma Mid_heard : forall j c s s', Mid j s -> owed (TIn j c) = Some c -> (forall y, c <> Err y) ->
  r_told s' = r_told s -> r_tr s' = r_tr s ++ [TIn j c] -> r_n s' = r_n s -> r_outer s' = r_outer s -> r_open s' = r_open s ->
  r_last s' = r_last s -> r_fin s' j = None -> r_caught s' = r_caught s -> Mid j (tell_d c s').
Proof.
  intros j c s s' [Kk U O C L N F Cn Cs] W X E1 E2 E3 E4 E5 E6 E7 E8. constructor.
  - eapply K_heard; eauto. lia.
  - rewrite tell_user, E2. apply user_snoc; auto. discriminate.
  - rewrite tell_outer, E4. intros Z. apply tell_keeps. unfold shut. rewrite E1. exact (O Z).
  - unfold nobody. now rewrite tell_ropen, E5.
  - now rewrite tell_last, E6.
  - now rewrite tell_n, E3.
  - now rewrite tell_fin.
  - rewrite tell_caught, tell_failed, E2, E8. intros Z Y. apply (Cn Z). apply failed_snoc in Y as [Y|(y & Y)]; auto. injection Y as Y. now destruct (X y).
  - intros e. rewrite tell_caught, E8. intros Z. apply tell_has. rewrite E2. apply in_or_app. left. now apply Cs.
Qed.
Lemma easy_Mid : forall j c s, Mid j s -> Mid j (easy_call j c s) /\ frame j s (easy_call j c s).
Proof.
  intros j c s M. assert (M' := M). destruct M' as [Kk U O C L N F Cn Cs]. assert (J : j < r_n s) by lia.
  assert (FL : forall x, frame j s (log s x)) by (intros x; constructor; auto; now eexists).
  destruct c as [a|e| |]; cbn [RetryModel.easy_call].
  - set (s1 := tell_d (Nxt a) (log s (TIn j (Nxt a)))) in *.
    assert (M1 : Mid j s1) by (unfold s1; eapply Mid_heard; eauto; discriminate).
    assert (F1 : frame j s s1) by (apply frame_trans with (log s (TIn j (Nxt a))); [auto|apply frame_tell]).
    destruct (shut s1) eqn:Q; [|auto]. destruct (@Mid_unsubscribe j s1 M1) as [M2 F2]; [congruence|]. split; auto. eapply frame_trans; eauto.
  - split; [|constructor; auto; now eexists]. constructor; auto; cbn [with_caught log r_tr r_caught r_n r_fin r_last].
    + apply K_same with (log s (TIn j (Err e))); auto. apply K_log; cbn; auto. destruct Kk as [[]]. lia.
    + apply user_snoc; auto. discriminate.
    + discriminate.
    + intros e' Z. injection Z as <-. apply in_or_app. right. now left.
  - set (s1 := with_fin (log s (TIn j Cmp)) j (Some FCmp)).
    assert (E1 : finish j s1 = fin0 (tell_d Cmp (with_fin s1 j None))) by (unfold RetryModel.finish at 1, s1 at 1; cbn [r_fin with_fin log]; now rewrite put_same).
    rewrite E1. assert (M1 : Mid j (tell_d Cmp (with_fin s1 j None))) by (unfold s1; eapply Mid_heard; eauto; [discriminate|apply put_same]).
    destruct (@Mid_fin0 j _ M1) as [M2 F2]; [now rewrite tell_closes|]. split; auto. eapply frame_trans; [|exact F2]. eapply frame_trans; [|apply frame_tell].
    apply frame_trans with s1; [|apply frame_fin]. apply frame_trans with (log s (TIn j Cmp)); [auto|apply frame_fin].
  - assert (M1 : Mid j (log s (TIn j Uns))).
    { constructor; auto; cbn [log r_tr].
      - apply K_log; cbn; auto. destruct Kk as [[]]. lia.
      - apply user_snoc; auto. discriminate.
      - intros Z Y. apply (Cn Z). apply failed_snoc in Y as [Y|(y & Y)]; auto. discriminate.
      - intros e Z. apply in_or_app. left. now apply Cs. }
    destruct (@Mid_unsubscribe j _ M1) as [M2 F2]; [|split; auto; eapply frame_trans; eauto].
    intros Q. split; [now apply shut_open; [destruct M1|]|]. right. left. exists j. cbn. apply in_or_app. right. now left.
Qed.
Lemma easies_Mid : forall j l s, Mid j s -> Mid j (easy_calls j l s) /\ frame j s (easy_calls j l s).
Proof.
  intros j. induction l as [|c l IH]; intros s M; cbn [RetryModel.easy_calls]; [auto using frame_refl|].
  destruct (@easy_Mid j c s M) as [M1 F1]. destruct (IH _ M1) as [M2 F2]. split; auto. eapply frame_trans; eauto.
Qed.

(** *** One subscription. *)
Record Ready (s : st) : Prop := mkReady {
  y_k : K s;
  y_u : ~ In TUser (r_tr s);
  y_o : r_outer s = true -> shut s = true;
  y_c : nobody s;
  y_l : r_last s = None;
  y_h : r_caught s = None;
  y_f : forall i, i < r_n s -> failed i (r_tr s) }.
Record Done (j : nat) (s : st) : Prop := mkDone {
  d_k : K s;
  d_u : ~ In TUser (r_tr s);
  d_o : r_outer s = true -> shut s = true;
  d_c : forall i, r_open s i = true -> i = j /\ r_last s = Some j /\ shut s = false;
  d_l : forall i, r_last s = Some i -> i = j;
  d_n : r_n s = S j;
  d_f : r_fin s j = None;
  d_cn : r_caught s = None -> ~ failed j (r_tr s);
  d_cs : forall e, r_caught s = Some e -> In (TIn j (Err e)) (r_tr s) }.

Lemma attempt_Done : forall s r, Ready s -> Done (r_n s) (attempt r s) /\ r_retries (attempt r s) (r_n s) = r /\
  (forall i, i <> r_n s -> r_retries (attempt r s) i = r_retries s i /\ r_fin (attempt r s) i = r_fin s i) /\
  r_busy (attempt r s) = r_busy s /\ r_added (attempt r s) = r_added s /\ exists l, r_tr (attempt r s) = r_tr s ++ l.
Proof.
  intros s r [Kk U O C L H F]. unfold RetryModel.attempt. set (j := r_n s) in *.
  set (s1 := log (with_fin (with_retries (with_n s (S j)) j r) j None) (TSub j)).
  assert (Nf : ~ failed j (r_tr s)) by (intros Z; apply (t_f (proj1 Kk)) in Z; unfold j in Z; lia).
  assert (M1 : Mid j s1).
  { constructor; auto; unfold s1; cbn [log with_fin with_retries with_n r_tr r_n r_caught r_fin].
    - destruct Kk as [[G O' S' N' F' B'] W]. split; [|now apply settled_snoc]. constructor; cbn [log with_fin with_retries with_n r_told r_tr r_n].
      + apply always_snoc; auto. refine (conj (conj N' F) (conj I (conj U (conj I _)))). now apply settled_dues.
      + rewrite outs_app, O'. cbn. now rewrite app_nil_r.
      + rewrite S'. split; apply open_same; rewrite outs_app; cbn; now rewrite app_nil_r.
      + rewrite attempts_app. unfold j. rewrite N'. cbn. lia.
      + intros i Z. apply failed_snoc in Z as [Z|(y & Z)]; [|discriminate]. apply F' in Z. unfold j. lia.
      + intros i Z. apply failed_app. apply F. lia.
    - apply user_snoc; auto. discriminate.
    - apply put_same.
    - intros _ Z. apply failed_snoc in Z as [Z|(y & Z)]; [auto|discriminate].
    - rewrite H. discriminate. }
  destruct (@easies_Mid j (sync j) s1 M1) as [M2 [F1 F2 F3 F4 (l & F5)]]. set (s2 := easy_calls j (sync j) s1) in *.
  set (s3 := if live j && negb (shut s2) then _ else _).
  assert (E1 : r_told s3 = r_told s2 /\ r_tr s3 = r_tr s2 /\ r_n s3 = r_n s2 /\ r_outer s3 = r_outer s2 /\ r_caught s3 = r_caught s2 /\ r_retries s3 = r_retries s2 /\ r_fin s3 = r_fin s2 /\ r_busy s3 = r_busy s2 /\ r_added s3 = r_added s2).
  { unfold s3. destruct (live j && negb (shut s2)); cbn; repeat split; auto. }
  destruct E1 as (E1 & E2 & E3 & E4 & E5 & E6 & E7 & E8 & E9). destruct M2. split; [|rewrite E6, E7, E8, E9, F1, F2, F3; split; [apply put_same|]; split; [|split; [auto|split; [auto|]]]].
  - constructor; rewrite ?E2, ?E3, ?E4, ?E5, ?E7; auto.
    + eapply K_same; eauto.
    + unfold shut in *. now rewrite E1.
    + unfold s3. destruct (live j && negb (shut s2)) eqn:Q; cbn.
      * intros i. unfold put. destruct (i =? j) eqn:Q'; [|now rewrite m_c0]. apply Nat.eqb_eq in Q'. subst i. apply andb_true_iff in Q as [_ Q]. apply negb_true_iff in Q. auto.
      * intros i. now rewrite m_c0.
    + unfold s3. destruct (live j && negb (shut s2)); cbn; [|rewrite m_l0]; intros i Z; congruence.
  - intros i Hi. rewrite F4 by auto. unfold s1. cbn. now rewrite !put_other.
  - exists ([TSub j] ++ l). rewrite E2, F5. unfold s1. cbn. now rewrite <- app_assoc.
Qed.

(** *** Unsubscribing once the destination is closed. *)
Record same (s s' : st) : Prop := mkSame {
  a_t : r_told s' = r_told s;
  a_n : r_n s' = r_n s;
  a_c : r_caught s' = r_caught s;
  a_r : r_retries s' = r_retries s;
  a_f : r_fin s' = r_fin s;
  a_b : r_busy s' = r_busy s;
  a_l : r_last s' = r_last s;
  a_u : In TUser (r_tr s') <-> In TUser (r_tr s);
  a_d : forall i, failed i (r_tr s') <-> failed i (r_tr s);
  a_x : forall e, In e (r_tr s) -> In e (r_tr s') }.
Lemma same_refl : forall s, same s s.
Proof. intros s. constructor; auto; reflexivity. Qed.
Lemma same_trans : forall s1 s2 s3, same s1 s2 -> same s2 s3 -> same s1 s3.
Proof. intros s1 s2 s3 [] []. constructor; try congruence; [now rewrite a_u1|intros i; now rewrite a_d1|auto]. Qed.
Lemma end_over : forall j s, K s -> shut s = true -> K (end_sub j s) /\ same s (end_sub j s) /\
  (forall i, r_open (end_sub j s) i = true -> r_open s i = true /\ i <> j) /\ (r_outer s = true -> r_outer (end_sub j s) = true).
Proof.
  intros j s H S. unfold RetryModel.end_sub. destruct (r_open s j) eqn:Q; cbn [negb].
  - set (s1 := log (with_open s j false) (TEnd j)).
    assert (K1 : K s1).
    { assert (Z : K (log s (TEnd j))) by (apply K_log; cbn; auto; right; left; now apply open_shut). eapply K_same; eauto. }
    assert (S1 : same s s1).
    { constructor; auto; unfold s1; cbn [log with_open r_tr].
      - split; intros Z; [apply in_app_or in Z as [Z|[Z|[]]]; [auto|discriminate]|apply in_or_app; auto].
      - intros i. split; [|apply failed_app]. intros Z. apply failed_snoc in Z as [Z|(y & Z)]; [auto|discriminate].
      - intros x Z. apply in_or_app. auto. }
    assert (O1 : forall i, r_open s1 i = true -> r_open s i = true /\ i <> j).
    { intros i. unfold s1. cbn. unfold put. destruct (i =? j) eqn:Z; [discriminate|]. apply Nat.eqb_neq in Z. auto. }
    destruct (is_busy j s); [auto|]. destruct (none (r_caught s1) && none (r_fin s1 j)); [|auto].
    rewrite tell_shut by (exact S). split; [eapply K_same; eauto|]. split; [|auto]. destruct S1. constructor; auto.
  - split; [auto|]. split; [apply same_refl|]. split; [|auto]. intros i Hi. split; auto. congruence.
Qed.
Definition held (s : st) : Prop := forall i, r_open s i = true -> r_last s = Some i /\ r_added s = true /\ r_outer s = false.
Lemma outer_over : forall s, K s -> shut s = true -> held s -> K (outer_unsubscribe s) /\ same s (outer_unsubscribe s) /\
  nobody (outer_unsubscribe s) /\ r_outer (outer_unsubscribe s) = true.
Proof.
  intros s H S O. unfold RetryModel.outer_unsubscribe. destruct (r_outer s) eqn:Q.
  - split; [auto|]. split; [apply same_refl|]. split; [|auto]. intros i. destruct (r_open s i) eqn:Z; auto. apply O in Z. destruct Z as (_ & _ & Z). congruence.
  - assert (K1 : K (with_outer s true)) by (eapply K_same; eauto).
    assert (S1 : same s (with_outer s true)) by (constructor; auto; reflexivity).
    destruct (r_added s) eqn:Q1.
    + unfold RetryModel.end_last. cbn [r_last with_outer]. destruct (r_last s) as [j|] eqn:Q2.
      * destruct (@end_over j (with_outer s true) K1 S) as (H1 & H2 & H3 & H4). split; auto. split; [eapply same_trans; eauto|]. split; [|auto].
        intros i. destruct (r_open (end_sub j (with_outer s true)) i) eqn:Z; auto. apply H3 in Z as [Z1 Z2]. apply O in Z1 as (Z1 & _). congruence.
      * split; auto. split; auto. split; [|auto]. intros i. cbn. destruct (r_open s i) eqn:Z; auto. apply O in Z as (Z1 & _). congruence.
    + split; auto. split; auto. split; [|auto]. intros i. cbn. destruct (r_open s i) eqn:Z; auto. apply O in Z as (_ & Z1 & _). congruence.
Qed.

(** *** Between calls. *)
Record Q (s : st) : Prop := mkQ {
  q_k : K s;
  q_u : In TUser (r_tr s) -> r_outer s = true;
  q_b : r_busy s = None;
  q_n : r_n s <= S (S max);
  q_e : S max < r_n s -> shut s = true;
  q_g : forall i, failed i (r_tr s) -> shut s = false -> S i < r_n s;
  q_o : forall j, r_open s j = true -> S j = r_n s /\ r_last s = Some j /\ r_retries s j = j /\ r_fin s j = None /\
          r_caught s = None /\ r_added s = true /\ r_outer s = false /\ shut s = false }.

Lemma over_Q : forall s, K s -> shut s = true -> nobody s -> r_outer s = true -> r_busy s = None -> r_n s <= S (S max) -> Q s.
Proof. intros s H S N O B L. constructor; auto; [congruence|]. intros j Z. now rewrite N in Z. Qed.

Lemma end_failed : forall j e s, Done j s -> r_caught s = Some e -> K (end_last s) /\ same s (end_last s) /\ nobody (end_last s) /\
  r_outer (end_last s) = r_outer s /\ r_added (end_last s) = r_added s /\ shut (end_last s) = shut s.
Proof.
  intros j e s [Kk U O C L N F Cn Cs] H. unfold RetryModel.end_last. destruct (r_last s) as [i|] eqn:Q1.
  - assert (i = j) by auto. subst i. unfold RetryModel.end_sub. destruct (r_open s j) eqn:Q2; cbn [negb].
    + set (s1 := log (with_open s j false) (TEnd j)).
      assert (K1 : K s1).
      { assert (Z : K (log s (TEnd j))) by (apply K_log; cbn; auto; left; exists e; auto). eapply K_same; eauto. }
      assert (S1 : same s s1).
      { constructor; auto; unfold s1; cbn [log with_open r_tr].
        - split; intros Z; [apply in_app_or in Z as [Z|[Z|[]]]; [auto|discriminate]|apply in_or_app; auto].
        - intros i. split; [|apply failed_app]. intros Z. apply failed_snoc in Z as [Z|(y & Z)]; [auto|discriminate].
        - intros x Z. apply in_or_app. auto. }
      assert (O1 : nobody s1).
      { intros i. unfold s1. cbn. unfold put. destruct (i =? j) eqn:Z; auto. destruct (r_open s i) eqn:Z1; auto. apply C in Z1 as (-> & _). now rewrite Nat.eqb_refl in Z. }
      assert (H1 : r_caught s1 = Some e) by (exact H). rewrite H1. cbn [none andb]. destruct (is_busy j s); repeat (split; [auto|]); auto.
    + split; [auto|]. split; [apply same_refl|]. split; [|auto]. intros i. destruct (r_open s i) eqn:Z; auto. destruct (C _ Z) as (-> & _). congruence.
  - split; [auto|]. split; [apply same_refl|]. split; [|auto]. intros i. destruct (r_open s i) eqn:Z; auto. destruct (C _ Z) as (_ & Z1 & _). congruence.
Qed.
Lemma immediate_Q : forall left s, left <= S max -> 0 < left -> r_n s = S max - left -> Ready (with_caught s None) -> r_busy s = None -> Q (immediate left s).
Proof.
  induction left as [|l IH]; intros s L P N Y B; [lia|]. cbn [RetryModel.immediate].
  destruct (@attempt_Done (with_caught s None) (max - l) Y) as (D & R1 & R2 & R3 & R4 & _). cbn [with_caught r_n r_busy r_retries r_added] in *.
  set (s1 := attempt (max - l) (with_caught s None)) in *. set (j := r_n s) in *. assert (J : j = max - l) by (unfold j; lia).
  destruct (r_caught s1) as [e|] eqn:H1; cbn [none].
  - destruct (@end_failed j e s1 D H1) as (K2 & S2 & O2 & Ou & Ad & Sh). set (s2 := end_last s1) in *. destruct D. destruct S2.
    assert (Fl : forall i, i < S j -> failed i (r_tr s2)).
    { intros i Hi. apply a_d0. destruct (Nat.eq_dec i j) as [->|]; [exists e; auto|]. apply (t_b (proj1 d_k0)). lia. }
    destruct l as [|l].
    + assert (C3 : r_caught (with_last s2 None) = Some e) by (cbn; congruence). rewrite C3. set (s3 := with_caught (with_last s2 None) None).
      assert (K3 : K s3) by (eapply K_same; eauto).
      assert (U3 : ~ In TUser (r_tr s3)) by (unfold s3; cbn; now rewrite a_u0).
      assert (K4 : K (tell_d (Err e) s3)).
      { apply K_tell; auto. intros Z. split; [|now cbn]. split; [now apply shut_open|]. split; [|intros i Hi; apply Fl; lia].
        exists j. unfold s3. cbn. auto. }
      assert (S4 : shut (tell_d (Err e) s3) = true) by (now apply tell_closes). set (s4 := tell_d (Err e) s3) in *.
      assert (H4 : held s4) by (intros i; unfold s4; rewrite tell_ropen; unfold s3; cbn; rewrite O2; discriminate).
      rewrite (tell_shut _ _ S4). destruct (@outer_over s4 K4 S4 H4) as (K5 & S5 & N5 & O5). destruct S5. apply over_Q; auto.
      * unfold shut in *. now rewrite a_t1.
      * rewrite a_b1. unfold s4. rewrite tell_busy. unfold s3. cbn. congruence.
      * rewrite a_n1. unfold s4. rewrite tell_n. unfold s3. cbn. rewrite a_n0, d_n0. lia.
    + apply IH; cbn; try lia; try congruence. constructor; auto; cbn.
      * now rewrite a_u0.
      * unfold shut in *. cbn. rewrite Ou, a_t0. auto.
      * rewrite a_n0, d_n0. auto.
  - destruct D.
    set (s2 := if shut s1 then s1 else outer_add s1).
    assert (E2 : s2 = s1 /\ shut s1 = true \/ s2 = with_added s1 true /\ shut s1 = false /\ r_outer s1 = false).
    { unfold s2. destruct (shut s1) eqn:Q1; auto. right. unfold RetryModel.outer_add. destruct (r_outer s1) eqn:Q2; [|auto]. specialize (d_o0 eq_refl). congruence. }
    assert (F2 : r_told s2 = r_told s1 /\ r_tr s2 = r_tr s1 /\ r_n s2 = r_n s1 /\ r_open s2 = r_open s1 /\ r_last s2 = r_last s1 /\ r_busy s2 = r_busy s1 /\ r_outer s2 = r_outer s1 /\ r_fin s2 = r_fin s1 /\ r_retries s2 = r_retries s1 /\ r_caught s2 = r_caught s1).
    { destruct E2 as [[-> _]|(-> & _)]; repeat split; auto. }
    clearbody s2. destruct F2 as (F1 & F2 & F3 & F4 & F5 & F6 & F7 & F8 & F9 & F10).
    assert (K2 : K s2) by (eapply K_same; eauto).
    assert (H2 : held s2).
    { intros i. rewrite F4. intros Z. apply d_c0 in Z as (-> & Z1 & Z2). rewrite F5, F7. destruct E2 as [[_ E2]|(-> & _ & E2)]; [congruence|]. auto. }
    destruct (l =? 0) eqn:Q1.
    + apply Nat.eqb_eq in Q1. subst l. assert (K3 : K (tell_d Uns s2)).
      { apply K_tell; auto. intros Z. split; [|now cbn]. split; [now apply shut_open|]. right. right. rewrite <- (t_n (proj1 K2)), F3, d_n0. lia. }
      assert (S3 : shut (tell_d Uns s2) = true) by (now apply tell_closes).
      assert (H3 : held (tell_d Uns s2)) by (intros i; rewrite tell_ropen, tell_last, tell_added, tell_outer; apply H2).
      destruct (@outer_over _ K3 S3 H3) as (K5 & S5 & N5 & O5). destruct S5. apply over_Q; auto.
      * unfold shut in *. now rewrite a_t0.
      * rewrite a_b0, tell_busy. congruence.
      * rewrite a_n0, tell_n, F3, d_n0. lia.
    + apply Nat.eqb_neq in Q1. constructor; auto.
      * now rewrite F2.
      * congruence.
      * rewrite F3, d_n0. lia.
      * rewrite F3, d_n0. lia.
      * intros i. rewrite F2, F3, d_n0. intros Z _. assert (i < S j) by (rewrite <- d_n0; now apply (t_f (proj1 d_k0))).
        assert (i <> j); [|lia]. intros ->. now apply d_cn0 in Z.
      * intros i. rewrite F3, F4, F5, F7, F8, F9, F10. intros Z. destruct (H2 i) as (_ & Z3 & _); [now rewrite F4|]. apply d_c0 in Z as (-> & Z1 & Z2). repeat split; auto; try congruence.
        -- destruct E2 as [[_ E2]|(_ & _ & E2)]; [congruence|auto].
        -- unfold shut in *. now rewrite F1.
Qed.

(** *** A later call. *)
Record Over (s : st) : Prop := mkOver { v_k : K s; v_s : shut s = true; v_n : nobody s; v_o : r_outer s = true; v_l : r_n s <= S (S max) }.
Lemma over_end : forall s, K s -> shut s = true -> held s -> r_n s <= S (S max) -> Over (fin0 s).
Proof.
  intros s H S O L. unfold fin0. destruct (@outer_over s H S O) as (H1 & H2 & H3 & H4). destruct H2.
  assert (S1 : shut (outer_unsubscribe s) = true) by (unfold shut in *; now rewrite a_t0). rewrite tell_shut by auto. constructor; auto. lia.
Qed.
Lemma over_finish : forall j s, K s -> shut s = true -> held s -> r_n s <= S (S max) -> Over (finish j s).
Proof.
  intros j s H S O L. unfold RetryModel.finish. set (s0 := with_fin s j None).
  assert (E1 : match r_fin s j with Some (FErr e) => tell_d (Err e) s0 | Some FCmp => tell_d Cmp s0 | None => s0 end = s0).
  { destruct (r_fin s j) as [[e|]|]; auto using tell_shut. }
  rewrite E1. apply over_end; auto.
Qed.
Lemma over_held : forall s, nobody s -> held s.
Proof. intros s H i Z. now rewrite H in Z. Qed.
Lemma over_last : forall j s, Over s -> Q (let s3 := with_busy s None in if r_open s3 j then s3 else sub_unsubscribe j s3).
Proof.
  intros j s [K1 S1 N1 O1 L1]. cbn. rewrite N1. unfold RetryModel.sub_unsubscribe. cbn [r_caught r_fin with_busy]. destruct (_ && _).
  - unfold RetryModel.finish. cbn [r_fin with_busy]. set (s0 := with_fin (with_busy s None) j None).
    assert (S0 : shut s0 = true) by (exact S1).
    assert (E1 : match r_fin s j with Some (FErr e) => tell_d (Err e) s0 | Some FCmp => tell_d Cmp s0 | None => s0 end = s0) by (destruct (r_fin s j) as [[e|]|]; auto using tell_shut).
    rewrite E1. unfold RetryModel.outer_unsubscribe. unfold s0 at 1. cbn [r_outer with_fin with_busy]. rewrite O1, tell_shut by auto. apply over_Q; auto.
  - apply over_Q; auto.
Qed.

Record Loop (j : nat) (s : st) : Prop := mkLoop {
  l_k : K s;
  l_u : ~ In TUser (r_tr s);
  l_o : r_outer s = true -> shut s = true;
  l_b : r_busy s = Some j;
  l_a : r_added s = true;
  l_c : forall i, r_open s i = true -> r_last s = Some i /\ shut s = false;
  l_l : forall i, r_last s = Some i -> i < r_n s /\ (i = j \/ r_caught s <> None);
  l_n : r_n s = S (r_retries s j);
  l_m : r_n s <= S (S max);
  l_f : forall i, i < r_n s -> failed i (r_tr s);
  l_j : j < r_n s }.
Record Next (j : nat) (s : st) : Prop := mkNext {
  n_k : K s;
  n_u : ~ In TUser (r_tr s);
  n_o : r_outer s = true -> shut s = true;
  n_b : r_busy s = Some j;
  n_a : r_added s = true;
  n_h : r_caught s = None;
  n_c : forall i, r_open s i = true -> S i = r_n s /\ r_last s = Some i /\ r_retries s i = i /\ r_fin s i = None /\ shut s = false;
  n_n : r_n s = S (r_retries s j);
  n_m : r_n s <= S (S max);
  n_f : forall i, failed i (r_tr s) -> S i < r_n s;
  n_j : S j < r_n s }.

Lemma reset_Ready : forall j s, Loop j s -> Ready (reset down j s) /\ r_n (reset down j s) = r_n s /\ r_retries (reset down j s) = r_retries s /\
  r_busy (reset down j s) = r_busy s /\ r_added (reset down j s) = r_added s /\ (exists l, r_tr (reset down j s) = r_tr s ++ l).
Proof.
  intros j s [Kk U O B A' C L N M F J]. unfold reset. destruct (r_last s) as [i|] eqn:Q1.
  - destruct (L i eq_refl) as [L1 L2]. unfold RetryModel.end_sub. cbn [r_open with_last]. destruct (r_open s i) eqn:Q2; cbn [negb].
    + set (s1 := log (with_open (with_last s None) i false) (TEnd i)).
      assert (E1 : (if is_busy i (with_last s None) then s1 else if none (r_caught s1) && none (r_fin s1 i) then tell_d Uns (with_outer s1 true) else s1) = s1).
      { unfold is_busy. cbn [r_busy with_last]. rewrite B. destruct (j =? i) eqn:Q3; auto. apply Nat.eqb_neq in Q3. destruct L2 as [L2|L2]; [congruence|].
        unfold s1 at 1. cbn [r_caught log with_open with_last]. destruct (r_caught s); [reflexivity|congruence]. }
      rewrite E1. split; [|unfold s1; cbn; repeat split; auto; now eexists]. constructor; auto; unfold s1; cbn.
      * assert (Z : K (log s (TEnd i))) by (apply K_log; cbn; auto). eapply K_same; eauto.
      * apply user_snoc; auto. discriminate.
      * intros x. cbn. unfold put. destruct (x =? i) eqn:Z; auto. destruct (r_open s x) eqn:Z1; auto. apply C in Z1 as (Z1 & _). apply Nat.eqb_neq in Z. congruence.
      * intros x Hx. apply failed_app. auto.
    + split; [|repeat split; auto; exists []; cbn; now rewrite app_nil_r]. constructor; auto; cbn. intros x. destruct (r_open s x) eqn:Z1; auto. assert (Z2 := Z1). apply C in Z2 as (Z2 & _). congruence.
  - split; [|repeat split; auto; exists []; cbn; now rewrite app_nil_r]. constructor; auto; cbn. intros x. destruct (r_open s x) eqn:Z1; auto. assert (Z2 := Z1). apply C in Z2 as (Z2 & _). congruence.
Qed.

Lemma again_ends : forall left j s, Loop j s -> S max <= left + r_retries s j ->
  (Next j (again left j s) \/ Loop j (again left j s) /\ max < r_retries (again left j s) j) /\ (exists l, r_tr (again left j s) = r_tr s ++ l).
Proof.
  induction left as [|l IH]; intros j s W H; cbn [RetryModel.again].
  - split; [right; split; auto; lia|]. exists []. now rewrite app_nil_r.
  - destruct (r_retries s j <=? max) eqn:Q1; [|apply Nat.leb_gt in Q1; split; [auto|exists []; now rewrite app_nil_r]]. apply Nat.leb_le in Q1.
    destruct (reset_Ready W) as (Y & E1 & E2 & E3 & E4 & (t1 & E5)). set (s1 := reset down j s) in *. destruct W.
    set (s2 := with_retries s1 j (S (r_retries s1 j))).
    assert (Y2 : Ready s2) by (destruct Y; constructor; auto).
    assert (R2 : r_retries s2 j = S (r_retries s j)) by (change (put (r_retries s1) j (S (r_retries s1 j)) j = S (r_retries s j)); rewrite put_same; congruence).
    destruct (@attempt_Done s2 (r_retries s2 j) Y2) as (D & A1 & A2 & A3 & A4 & (t2 & A5)). set (s3 := attempt (r_retries s2 j) s2) in *.
    assert (N2 : r_n s2 = r_n s) by (exact E1). rewrite N2 in *. assert (J2 : j <> r_n s) by lia.
    assert (R3 : r_retries s3 j = S (r_retries s j)) by (rewrite (proj1 (A2 j J2)); auto).
    assert (T3 : exists t, r_tr s3 = r_tr s ++ t) by (exists (t1 ++ t2); rewrite A5; change (r_tr s1 ++ t2 = r_tr s ++ t1 ++ t2); now rewrite E5, app_assoc).
    destruct D. destruct (r_caught s3) as [e|] eqn:Q2; cbn [none].
    + assert (W3 : Loop j s3).
      { constructor; auto; try congruence; try lia.
        - rewrite A3. change (r_busy s1 = Some j). congruence.
        - rewrite A4. change (r_added s1 = true). congruence.
        - intros i Z. apply d_c0 in Z as (-> & Z1 & Z2). auto.
        - intros i Z. apply d_l0 in Z as ->. split; [lia|]. right. congruence.
        - rewrite d_n0. intros i Z. destruct (Nat.eq_dec i (r_n s)) as [->|]; [exists e; auto|]. apply (t_b (proj1 d_k0)). lia. }
      destruct (IH j s3 W3) as [H1 (t3 & H2)]; [lia|]. split; auto. destruct T3 as (t & T3). exists (t ++ t3). now rewrite H2, T3, app_assoc.
    + assert (O4 : outer_add s3 = s3 \/ outer_add s3 = with_added s3 true).
      { unfold RetryModel.outer_add. destruct (r_outer s3) eqn:Q3; auto. left. unfold RetryModel.end_last. destruct (r_last s3) as [i|] eqn:Q4; auto. unfold RetryModel.end_sub.
        destruct (r_open s3 i) eqn:Q5; auto. apply d_c0 in Q5 as (_ & _ & Q5). rewrite (d_o0 eq_refl) in Q5. discriminate. }
      assert (N4 : Next j s3).
      { constructor; auto; try congruence; try lia.
        - rewrite A3. change (r_busy s1 = Some j). congruence.
        - rewrite A4. change (r_added s1 = true). congruence.
        - intros i Z. apply d_c0 in Z as (-> & Z1 & Z2). repeat split; auto. rewrite A1, R2. auto.
        - intros i Z. assert (i < r_n s3) by (now apply (t_f (proj1 d_k0))). assert (i <> r_n s); [|lia]. intros ->. now apply d_cn0 in Z. }
      assert (T4 : r_tr (outer_add s3) = r_tr s3) by (destruct O4 as [->| ->]; auto).
      split; [|now rewrite T4]. left. destruct O4 as [->| ->]; auto. destruct N4. constructor; auto.
Qed.

Definition after (j : nat) (s : st) : st := let s3 := with_busy s None in if r_open s3 j then s3 else sub_unsubscribe j s3.
Lemma error_Q : forall j e s, Q s -> r_open s j = true -> Q (after j (error j e (log (with_busy s (Some j)) (TIn j (Err e))))).
Proof.
  intros j e s H P. assert (H' := H). destruct H' as [Kk U B N Ne G Op]. destruct (Op j P) as (P1 & P2 & P3 & P4 & P5 & P6 & P7 & P8).
  assert (Us : ~ In TUser (r_tr s)) by (intros Z; apply U in Z; congruence).
  set (s1 := log (with_busy s (Some j)) (TIn j (Err e))).
  assert (K1 : K s1).
  { assert (Z : K (log s (TIn j (Err e)))) by (apply K_log; cbn; auto; rewrite <- (t_n (proj1 Kk)); lia). eapply K_same; eauto. }
  assert (W1 : Loop j s1).
  { constructor; auto; unfold s1; cbn [log with_busy r_tr r_outer r_last r_caught r_n r_retries r_open]; try congruence; try lia.
    - apply user_snoc; auto. discriminate.
    - intros i Z. apply Op in Z. tauto.
    - intros i Z. split; [|left; congruence]. assert (i = j) by congruence. lia.
    - intros i Hi. destruct (Nat.eq_dec i j) as [->|]; [exists e; apply in_or_app; right; now left|]. apply failed_app. apply (t_b (proj1 Kk)). lia. }
  unfold RetryModel.error. destruct (@again_ends (S max) j s1 W1) as [H1 (l & H2)]; [lia|]. set (s2 := again (S max) j s1) in *.
  assert (He : In (TIn j (Err e)) (r_tr s2)) by (rewrite H2; apply in_or_app; left; unfold s1; cbn; apply in_or_app; right; now left).
  change (r_retries (with_fin s2 j (Some (FErr e))) j) with (r_retries s2 j). clearbody s2.
  assert (Big : max < r_retries s2 j -> K s2 -> ~ In TUser (r_tr s2) -> (forall i, r_open s2 i = true -> r_last s2 = Some i /\ shut s2 = false) ->
    (r_outer s2 = true -> shut s2 = true) -> r_added s2 = true -> r_n s2 = S (r_retries s2 j) -> r_n s2 <= S (S max) -> Over (finish j (with_fin s2 j (Some (FErr e))))).
  { intros L K2 U2 C2 O2 A2 N2 M2. unfold RetryModel.finish. cbn [r_fin with_fin]. rewrite put_same. set (s3 := with_fin (with_fin s2 j (Some (FErr e))) j None).
    assert (K3 : K (tell_d (Err e) s3)).
    { apply K_tell; [eapply K_same; eauto|]. intros Z. split; [|now cbn]. split; [now apply (@shut_open s2)|]. split; [eauto|]. intros i Hi. apply (t_b (proj1 K2)). lia. }
    apply over_end; auto; [now apply tell_closes| |now rewrite tell_n].
    intros i. rewrite tell_ropen, tell_last, tell_added, tell_outer. unfold s3. cbn. intros Z. apply C2 in Z as (Z1 & Z2). repeat split; auto. destruct (r_outer s2); auto. rewrite O2 in Z2 by auto. discriminate. }
  destruct H1 as [H1|[H1 H3]].
  - destruct H1. destruct (max <? r_retries s2 j) eqn:Q1.
    + apply Nat.ltb_lt in Q1. apply over_last. apply Big; auto. intros i Z. apply n_c0 in Z. tauto.
    + apply Nat.ltb_ge in Q1. set (s3 := with_fin s2 j (Some (FErr e))).
      assert (Oj : r_open s2 j = false) by (destruct (r_open s2 j) eqn:Z; auto; apply n_c0 in Z; lia).
      unfold after. cbn [r_open with_busy with_fin s3]. rewrite Oj. unfold RetryModel.sub_unsubscribe. cbn [r_caught r_fin with_busy with_fin s3]. rewrite put_same. cbn [none]. rewrite andb_false_r.
      constructor; auto; cbn; try tauto; try lia. intros i Z. apply n_c0 in Z as (Z1 & Z2 & Z3 & Z4 & Z5). repeat split; auto.
      * rewrite put_other; auto. lia.
      * destruct (r_outer s2); auto. rewrite n_o0 in Z5 by auto. discriminate.
  - destruct H1. assert (Q1 : max <? r_retries s2 j = true) by (now apply Nat.ltb_lt). rewrite Q1. apply over_last. apply Big; auto.
Qed.

Lemma late_Q : forall j c s, Q s -> r_open s j = true -> Q (late_call j c s).
Proof.
  intros j c s H P. destruct c as [a|e| |]; [|exact (@error_Q j e s H P)| |]; match goal with |- Q (late_call ?j ?c ?s) => change (Q (after j (easy_call j c (with_busy s (Some j))))) end;
  assert (H' := H); destruct H' as [Kk U B N Ne G Op]; destruct (Op j P) as (P1 & P2 & P3 & P4 & P5 & P6 & P7 & P8);
  assert (Us : ~ In TUser (r_tr s)) by (intros Z; apply U in Z; congruence).
  - cbn [RetryModel.easy_call]. set (s1 := log (with_busy s (Some j)) (TIn j (Nxt a))).
    assert (K1 : K (tell_d (Nxt a) s1)) by (apply (@K_heard j (Nxt a) s s1); auto; lia).
    assert (H1 : held (tell_d (Nxt a) s1)).
    { intros i. rewrite tell_ropen, tell_last, tell_added, tell_outer. unfold s1. cbn. intros Z. apply Op in Z. tauto. }
    destruct (shut (tell_d (Nxt a) s1)) eqn:S1.
    + unfold RetryModel.sub_unsubscribe. rewrite tell_caught, tell_fin. unfold s1 at 1 2. cbn [r_caught r_fin log with_busy]. rewrite P5, P4. cbn [none andb].
      apply over_last. apply over_finish; auto. rewrite tell_n. exact N.
    + unfold after. cbn [r_open with_busy]. rewrite tell_ropen. unfold s1 at 1. cbn [r_open with_busy log]. rewrite P. constructor; auto.
      * cbn [r_tr with_busy r_outer]. rewrite tell_user, tell_outer. unfold s1. cbn [log with_busy r_tr]. intros Z. apply in_app_or in Z as [Z|[Z|[]]]; [destruct (Us Z)|discriminate].
      * cbn. rewrite tell_n. exact N.
      * cbn [r_n with_busy]. rewrite tell_n. intros Z. rewrite (Ne Z) in P8. discriminate.
      * intros i. cbn [r_tr r_n with_busy]. rewrite tell_failed, tell_n. unfold s1. cbn [log with_busy r_tr r_n]. intros Z _. apply failed_snoc in Z as [Z|(y & Z)]; [auto|discriminate].
      * intros i. cbn. rewrite tell_ropen, tell_last, tell_added, tell_outer, tell_n, tell_fin, tell_retries, tell_caught. intros Z. apply Op in Z. unfold s1. cbn. tauto.
  - cbn [RetryModel.easy_call]. set (s1 := with_fin (log (with_busy s (Some j)) (TIn j Cmp)) j (Some FCmp)).
    assert (E1 : finish j s1 = fin0 (tell_d Cmp (with_fin s1 j None))) by (unfold RetryModel.finish at 1, s1 at 1; cbn [r_fin with_fin log]; now rewrite put_same).
    rewrite E1. apply over_last. apply over_end.
    + apply (@K_heard j Cmp s); auto. lia.
    + now apply tell_closes.
    + intros i. rewrite tell_ropen, tell_last, tell_added, tell_outer. unfold s1. cbn. intros Z. apply Op in Z. tauto.
    + rewrite tell_n. exact N.
  - cbn [RetryModel.easy_call]. set (s1 := log (with_busy s (Some j)) (TIn j Uns)).
    unfold RetryModel.sub_unsubscribe. unfold s1 at 1 2. cbn [r_caught r_fin log with_busy]. rewrite P5, P4. cbn [none andb]. apply over_last.
    unfold RetryModel.finish. unfold s1 at 1. cbn [r_fin log with_busy]. rewrite P4. unfold RetryModel.outer_unsubscribe. unfold s1 at 1. cbn [r_outer with_fin log with_busy]. rewrite P7.
    unfold s1 at 1. cbn [r_added with_fin log with_busy]. rewrite P6. unfold RetryModel.end_last. unfold s1 at 1. cbn [r_last with_outer with_fin log with_busy]. rewrite P2.
    unfold RetryModel.end_sub. cbn [r_open with_outer with_fin log with_busy s1]. rewrite P. cbn [negb]. unfold is_busy. cbn [r_busy with_outer with_fin log with_busy s1]. rewrite Nat.eqb_refl.
    set (s2 := log (with_open _ _ _) _).
    assert (K2 : K s2).
    { assert (Z : K (log (log s (TIn j Uns)) (TEnd j))).
      { apply K_log; cbn; auto; [apply K_log; cbn; auto; rewrite <- (t_n (proj1 Kk)); lia|]. right. right. right. apply in_or_app. right. now left. }
      eapply K_same; eauto. }
    constructor.
    + apply K_tell; auto. intros Z. split.
      * split; [now apply shut_open|]. right. left. exists j. cbn. apply in_or_app. left. apply in_or_app. right. now left.
      * cbn. auto.
    + now apply tell_closes.
    + intros i. rewrite tell_ropen. unfold s2. cbn. unfold put. destruct (i =? j) eqn:Z; auto. destruct (r_open s i) eqn:Z1; auto. apply Op in Z1 as (_ & Z1 & _). apply Nat.eqb_neq in Z. congruence.
    + now rewrite tell_outer.
    + rewrite tell_n. exact N.
Qed.

Lemma user_Q : forall s, Q s -> r_outer s = false -> Q (outer_unsubscribe (log s TUser)).
Proof.
  intros s [Kk U B N Ne G Op] P. unfold RetryModel.outer_unsubscribe. cbn [r_outer log r_added]. rewrite P.
  set (s1 := with_outer (log s TUser) true).
  assert (K1 : K s1) by (assert (Z : K (log s TUser)) by (apply K_log; cbn; auto); eapply K_same; eauto).
  assert (Nf : forall i, failed i (r_tr s ++ [TUser]) -> failed i (r_tr s)) by (intros i Z; apply failed_snoc in Z as [Z|(y & Z)]; [auto|discriminate]).
  assert (Q1 : nobody s1 -> Q s1).
  { intros Z. constructor; auto; unfold s1; cbn; auto. intros i Z1. specialize (Z i). unfold s1 in Z. cbn in Z. congruence. }
  destruct (r_added s) eqn:Q2; [|apply Q1; intros i; unfold s1; cbn; destruct (r_open s i) eqn:Z; auto; apply Op in Z as (_ & _ & _ & _ & _ & Z & _); congruence].
  unfold RetryModel.end_last. unfold s1 at 1. cbn [r_last with_outer log]. destruct (r_last s) as [j|] eqn:Q3; [|apply Q1; intros i; unfold s1; cbn; destruct (r_open s i) eqn:Z; auto; apply Op in Z as (_ & Z & _); congruence].
  unfold RetryModel.end_sub. unfold s1 at 1. cbn [r_open with_outer log]. destruct (r_open s j) eqn:Q4; cbn [negb].
  - destruct (Op j Q4) as (P1 & P2 & P3 & P4 & P5 & P6 & P7 & P8). unfold is_busy, s1. cbn [r_busy with_outer log]. rewrite B. cbn [r_caught r_fin with_outer log with_open]. rewrite P5, P4. cbn [none andb].
    set (s2 := with_outer _ _).
    assert (K2 : K s2).
    { assert (Z : K (log s1 (TEnd j))) by (apply K_log; cbn; auto; right; right; left; apply in_or_app; right; now left). eapply K_same; eauto. }
    apply over_Q.
    + apply K_tell; auto. intros Z. split; [|now cbn]. split; [now apply shut_open|]. left. cbn. apply in_or_app. left. apply in_or_app. right. now left.
    + now apply tell_closes.
    + intros i. rewrite tell_ropen. unfold s2. cbn. unfold put. destruct (i =? j) eqn:Z; auto. destruct (r_open s i) eqn:Z1; auto. apply Op in Z1 as (_ & Z1 & _). apply Nat.eqb_neq in Z. congruence.
    + now rewrite tell_outer.
    + now rewrite tell_busy.
    + rewrite tell_n. exact N.
  - apply Q1. intros i. unfold s1. cbn. destruct (r_open s i) eqn:Z; auto. assert (Z1 := Z). apply Op in Z as (_ & Z & _). congruence.
Qed.
Lemma perform_Q : forall a s, Q s -> Q (perform a s).
Proof.
  intros [j c|] s H; cbn [RetryModel.perform].
  - destruct (r_open s j) eqn:P; auto. now apply late_Q.
  - destruct (r_outer s) eqn:P; auto. now apply user_Q.
Qed.
Lemma start_Q : Q (subscribe down sync live max).
Proof.
  unfold subscribe. apply immediate_Q; auto; cbn; try lia. constructor; cbn; auto; try lia; try discriminate.
  - split; [constructor; cbn|intros q x c H; destruct q; discriminate].
    + intros p e s H. destruct p; discriminate.
    + auto.
    + split; auto. intros _ os c os' H. destruct os; discriminate.
    + auto.
    + intros i (x & []).
    + lia.
  - intros i. reflexivity.
Qed.
Lemma run_Q : forall h, Q (run h).
Proof.
  intros h. unfold RetryModel.run. rewrite <- fold_left_rev_right. induction (rev h) as [|a l IH]; [apply start_Q|]. cbn [fold_right]. now apply perform_Q.
Qed.
End Proofs.
