(** Proofs about [FlatSpec]. *)
From Coq Require Import NArith.
From Verif Require Import Base SubscrModel LifeModel CombModel HoModel HoSpec HoProofs MergeSpec HoMerge HoAll FlatModel FlatSpec.
From Verif Require LifeProofs.
Set Implicit Arguments.

Section Flat.
Variables A E : Type.
Variable down : list (ncall A E) -> bool.
Variable k : kind.
Hypothesis Hk : match k with Concurrent _ => False | _ => True end.
Notation st := (HoModel.st A E).
Notation cmd := (HoModel.cmd A E).
Notation call := (ncall A E).
Implicit Types (s : st) (K : list cmd).

Lemma drive_split : forall fuel K1 K s s', drive down k fuel (K1 ++ K) s = Fine s' ->
  exists f1 f2 s1, drive down k f1 K1 s = Fine s1 /\ drive down k f2 K s1 = Fine s'.
Proof.
  induction fuel as [|n IH]; intros K1 K s s' R.
  - destruct K1; [|discriminate]. exists 0, 0, s. auto.
  - destruct K1 as [|c K1]; [exists 0, (S n), s; auto|]. cbn [app drive] in R.
    destruct (step down k c s) as [[s1 K2]|] eqn:Q; [|discriminate]. rewrite app_assoc in R.
    destruct (IH _ _ _ _ R) as (f1 & f2 & s2 & R1 & R2). exists (S f1), f2, s2. cbn [drive]. now rewrite Q.
Qed.
Lemma drive_cons fuel c K s s' : drive down k fuel (c :: K) s = Fine s' ->
  exists f s1 K1, step down k c s = Some (s1, K1) /\ drive down k f (K1 ++ K) s1 = Fine s'.
Proof. destruct fuel as [|n]; [discriminate|]. cbn [drive]. destruct (step down k c s) as [[s1 K1]|]; [|discriminate]. eauto. Qed.
Lemma drive_nil fuel s s' : drive down k fuel [] s = Fine s' -> s' = s.
Proof. destruct fuel; now injection 1. Qed.

(** After the end. *)
Definition over (os : list call) s : Prop := t_shut (s_told s) = true /\ outs (s_tr s) = os.
Lemma outs_log s e : outs (s_tr (log s e)) = outs (s_tr s) ++ match e with TOut c => [c] | _ => [] end.
Proof. apply outs_snoc. Qed.
Lemma step_over os c s s' K1 : over os s -> step down k c s = Some (s', K1) -> over os s'.
Proof.
  intros [H1 H2] R.
  assert (Un : forall i, do_unsub i s = Some (s', K1) -> over os s').
  { intros i Hu. unfold do_unsub in Hu. destruct (i_closed (s_inner s i)); [inversion Hu; subst; now split|].
    destruct (minus_one (s_nu s)); [|discriminate]. destruct (if i_completed _ then _ else _); [|discriminate].
    inversion Hu; subst s' K1. split; auto. cbn [with_counts with_down s_tr log with_inner]. now rewrite outs_snoc, app_nil_r. }
  assert (Lg : forall s0 e, over os s0 -> match e with TOut _ => False | _ => True end -> over os (log s0 e)).
  { intros s0 e [Q1 Q2] He. split; auto. rewrite outs_log, Q2. destruct e; try apply app_nil_r. destruct He. }
  destruct c as [m| | | |i l|i m|i|i|i|i|i| |i| |i]; cbn [step] in R.
  - rewrite H1 in R. inversion R; subst. now split.
  - destruct (s_torn s); [|destruct k]; inversion R; subst; now split.
  - inversion R; subst; now split.
  - destruct (s_queue s) as [|[]]; inversion R; subst; now split.
  - inversion R; subst. apply Lg; auto. destruct k; now split.
  - destruct (_ || _); [inversion R; subst; now split|]. assert (Z : over os (log s (TIn i m))) by (apply Lg; auto; now split).
    destruct m; try (inversion R; subst; exact Z). destruct (set_error _); inversion R; subst. exact Z.
  - rewrite H1 in R. inversion R; subst. now split.
  - destruct (s_nc s); [discriminate|]. destruct (can_downstream_complete _); [destruct (set_complete _); [|discriminate]|]; inversion R; subst; now split.
  - eauto.
  - destruct (existsb _ _); [inversion R; subst; now split|eauto].
  - destruct k; inversion R; subst; now split.
  - inversion R; subst; now split.
  - destruct (i_closed _); [|destruct k; try destruct (nth_error _ _)]; inversion R; subst; now split.
  - destruct (_ && _); inversion R; subst; now split.
  - inversion R; subst; now split.
Qed.
Lemma drive_over os fuel K s s' : over os s -> drive down k fuel K s = Fine s' -> over os s'.
Proof.
  intros H R. eapply (@drive_inv A E down k (fun _ s => over os s)); [|exact H|exact R].
  intros c K0 s0 s1 K1 H0 R0. eapply step_over; eauto.
Qed.
Lemma perform_over os a s s' K : over os s -> perform k a s = Some (s', K) -> over os s'.
Proof.
  intros H R. assert (Lg : forall e, match e with TOut _ => False | _ => True end -> outs (s_tr s ++ [e]) = os).
  { intros e He. rewrite outs_snoc, (proj2 H). destruct e; try apply app_nil_r. destruct He. }
  destruct a as [l|e| | |i c]; cbn [perform] in R.
  - destruct (is_torn k s); [inversion R; now subst|]. destruct k; [destruct (_ <? _)| |destruct (_ =? _)]; inversion R; subst; (split; [apply H|]); apply Lg; exact I.
  - destruct (is_torn k s); [inversion R; now subst|]. destruct (set_error _); [|discriminate]. destruct k; inversion R; subst; (split; [apply H|]); apply Lg; exact I.
  - destruct (is_torn k s); [inversion R; now subst|]. destruct (set_complete _); [|discriminate]. destruct (set_unsubscribe _); [|discriminate].
    destruct (can_downstream_complete _); [destruct k|]; inversion R; subst; (split; [apply H|]); apply Lg; exact I.
  - destruct (is_torn k s); [inversion R; now subst|]. unfold unsubscribe in R. destruct (is_torn k (log s (TUp Uns))); [|destruct k]; inversion R; subst; (split; [apply H|]); apply Lg; exact I.
  - destruct (_ || _); inversion R; subst; exact H.
Qed.
Lemma flatten_over os fuel : forall h s s', over os s -> flatten down k fuel h s = Fine s' -> over os s'.
Proof.
  induction h as [|a h IH]; intros s s' H R; cbn [flatten] in R; [now injection R as <-|].
  destruct (perform k a s) as [[s1 K]|] eqn:P; [|discriminate]. destruct (drive down k fuel K s1) as [s2| |] eqn:D; try discriminate.
  eapply IH; [|exact R]. eapply drive_over; [|exact D]. eapply perform_over; eauto.
Qed.

(** *** While it is open. *)
Definition gone s (j : nat) : Prop := i_closed (s_inner s j) = true \/ i_sub (s_inner s j) = false.
(** [p]: one that has arrived is about to be subscribed to. *)
Record Q (p : nat) (cur : option nat) (done : bool) s : Prop := {
  q_torn : s_torn s = false;
  q_queue : s_queue s = [];
  q_down : is_closed (s_down s) = false;
  q_open : t_shut (s_told s) = false;
  q_out : t_out (s_told s) = outs (s_tr s);
  q_done : is_completed (s_up s) = done;
  q_unsd : is_unsubscribed (s_up s) = done;
  q_err : is_errored (s_up s) = false;
  q_nc : s_nc s = (if cur then 1 else 0) + p;
  q_nu : s_nu s = (if cur then 1 else 0) + p;
  q_live : forall i, cur = Some i -> i_sub (s_inner s i) = true /\ i_closed (s_inner s i) = false /\ i_completed (s_inner s i) = false /\ i_ou (s_inner s i) = true;
  q_gone : forall j, cur <> Some j -> gone s j;
  q_cur : forall j, s_cur s = Some j -> i_closed (s_inner s j) = true \/ cur = Some j
}.
Definition frame s s' : Prop := s_arrived s' = s_arrived s /\ s_busy s' = s_busy s /\ s_cur s' = s_cur s /\
  forall i, i_sub (s_inner s i) = true -> i_sub (s_inner s' i) = true.
Lemma frame_refl s : frame s s. Proof. now repeat split. Qed.
Lemma frame_same s s' : s_arrived s' = s_arrived s -> s_busy s' = s_busy s -> s_cur s' = s_cur s -> (forall i, i_sub (s_inner s i) = true -> i_sub (s_inner s' i) = true) -> frame s s'.
Proof. repeat split; auto. Qed.
Lemma frame_trans s s1 s2 : frame s s1 -> frame s1 s2 -> frame s s2.
Proof. intros (a & b & c & x) (d & e & f & y). repeat split; try congruence. auto. Qed.

Lemma q_du p cur done s : Q p cur done s -> is_unsubscribed (s_down s) = false.
Proof. intros H. assert (D := q_down H). rewrite closed_split in D. now apply orb_false_iff in D. Qed.
Lemma Q_log p cur done s e : Q p cur done s -> match e with TOut _ => False | _ => True end -> Q p cur done (log s e) /\ outs (s_tr (log s e)) = outs (s_tr s).
Proof.
  intros H He. assert (Z : outs (s_tr (log s e)) = outs (s_tr s)) by (rewrite outs_log; destruct e; try apply app_nil_r; destruct He).
  split; auto. destruct H. constructor; auto. now rewrite Z.
Qed.

Lemma tell_Q p cur done m s s' K1 : Q p cur done s -> step down k (KTell m) s = Some (s', K1) ->
  K1 = [] /\ frame s s' /\ if is_closing m || down (outs (s_tr s) ++ [m]) then over (outs (s_tr s) ++ [m]) s' else Q p cur done s' /\ outs (s_tr s') = outs (s_tr s) ++ [m].
Proof.
  intros H R. cbn [step] in R. rewrite (q_open H) in R. destruct (tell_out down m (s_told s) (q_open H)) as [T1 T2].
  assert (K1 = []) by (destruct k; [contradiction| |]; now inversion R). subst K1. split; auto.
  assert (Es : s' = log (with_told s (tell down m (s_told s))) (TOut m)) by (destruct k; [contradiction| |]; now inversion R). clear R. subst s'.
  split; [now repeat split|]. rewrite (q_out H) in *. destruct (is_closing m || down (outs (s_tr s) ++ [m])) eqn:Z.
  - split; [cbn [log with_told s_told]; rewrite T2; auto|]. now rewrite outs_log.
  - split; [|now rewrite outs_log]. destruct H. constructor; auto; cbn [log with_told s_told s_tr].
    now rewrite T1, outs_snoc.
Qed.
(** The destination is told that it is over. *)
Lemma tell_end p cur done m fuel K s s' : Q p cur done s -> is_closing m = true -> drive down k fuel (KTell m :: K) s = Fine s' -> over (outs (s_tr s) ++ [m]) s'.
Proof.
  intros H Hm R. apply drive_cons in R. destruct R as (f & s1 & K1 & R1 & R2). destruct (tell_Q _ H R1) as (-> & _ & Z). rewrite Hm in Z. cbn [orb] in Z. eapply drive_over; [exact Z|exact R2].
Qed.

(** The subscriber of the inner observable is unsubscribed. *)
Lemma do_unsub_Q p done i s s' K1 : Q p (Some i) done s -> do_unsub i s = Some (s', K1) ->
  K1 = [KOnUnsub i] /\ frame s s' /\ Q p None done s' /\ outs (s_tr s') = outs (s_tr s).
Proof.
  intros H R. unfold do_unsub in R. destruct (q_live H eq_refl) as (L1 & L2 & L3 & L4). assert (D := q_du H).
  assert (C : can_downstream_unsubscribe s = false) by (unfold can_downstream_unsubscribe; rewrite (q_nu H), (q_down H), (q_err H), andb_false_r; auto).
  rewrite L2, L3, L4, C, D, (q_nc H), (q_nu H) in R. cbn [negb andb minus_one Nat.add] in R.
  inversion R; subst s' K1; clear R. split; auto. split; [apply frame_same; auto; cbn; intros j Hj; destruct (j =? i) eqn:Z; auto|]. cbn [with_counts with_down with_inner s_tr log]. split; [|now rewrite outs_snoc, app_nil_r].
  destruct H. constructor; cbn; auto; try discriminate.
  - now rewrite outs_snoc, app_nil_r.
  - intros j _. unfold gone. cbn. destruct (j =? i) eqn:Z; [left; auto|]. apply q_gone0. intros Y. injection Y as ->. now rewrite Nat.eqb_refl in Z.
  - intros j Hj. left. destruct (j =? i) eqn:Z; [auto|]. destruct (q_cur0 j Hj) as [Y|Y]; auto. injection Y as ->. now rewrite Nat.eqb_refl in Z.
Qed.
Lemma on_unsub_Q p done i s s' K1 : Q p None done s -> step down k (KOnUnsub i) s = Some (s', K1) ->
  s' = s /\ K1 = if done && (p =? 0) then [KTear; KTell Uns] else [].
Proof.
  intros H R. cbn [step] in R.
  assert (C : can_downstream_unsubscribe s = done && (p =? 0)).
  { unfold can_downstream_unsubscribe, queue_empty. rewrite (q_queue H), (q_nu H), (q_down H), (q_err H), (q_unsd H), (q_du H). cbn. rewrite !orb_false_r, andb_true_r. apply andb_comm. }
  rewrite C in R. destruct k; [contradiction| |]; inversion R; auto.
Qed.
Lemma tear_end p cur done fuel K s s' : Q p cur done s -> drive down k fuel (KTear :: KTell Uns :: K) s = Fine s' -> over (outs (s_tr s) ++ [Uns]) s'.
Proof.
  intros H R. apply drive_cons in R. destruct R as (f & s1 & K1 & R1 & R2). cbn [step] in R1. rewrite (q_torn H) in R1.
  assert (Z : s1 = with_torn s true /\ K1 = []) by (destruct k; [contradiction| |]; inversion R1; auto). destruct Z as [-> ->].
  cbn [app] in R2. apply drive_cons in R2. destruct R2 as (f2 & s2 & K2 & R2 & R3). cbn [step with_torn s_told] in R2. rewrite (q_open H) in R2.
  destruct (tell_out down Uns (s_told s) (q_open H)) as [T1 T2].
  assert (Z : over (outs (s_tr s) ++ [Uns]) s2).
  { assert (Y : s2 = log (with_told (with_torn s true) (tell down Uns (s_told s))) (TOut Uns)) by (destruct k; [contradiction| |]; now inversion R2).
    subst s2. split; [cbn [log with_told s_told with_counts with_down with_inner with_queue with_torn]; now rewrite T2|]. now rewrite outs_log. }
  eapply drive_over; eauto.
Qed.

(** *** A call of the inner observable that is listened to. *)
(** What was told with [os] is all that is told. *)
Definition halted (P os : list call) s : Prop := exists o, over o s /\ forall x, P ++ until down P (os ++ x) = o.
Definition goes (P os : list call) : Prop := forall x, until down P (os ++ x) = os ++ until down (P ++ os) x.
Definition going (p : nat) (cur : option nat) (done : bool) (P os : list call) (K : list cmd) s s' : Prop :=
  goes P os /\ exists f s1, Q p cur done s1 /\ frame s s1 /\ outs (s_tr s1) = P ++ os /\ drive down k f K s1 = Fine s'.
Lemma goes_nil P : goes P []. Proof. intros x. cbn. now rewrite app_nil_r. Qed.
Lemma goes_app P os os' : goes P os -> goes (P ++ os) os' -> goes P (os ++ os').
Proof. intros H1 H2 x. rewrite <- app_assoc, H1, H2, <- !app_assoc. auto. Qed.

Lemma call_Q done i m fuel K s s' : Q 0 (Some i) done s -> drive down k fuel (KCall i m :: K) s = Fine s' ->
  let P := outs (s_tr s) in let (os, f) := play done [m] in
  match f with
  | Going => halted P os s' \/ going 0 (Some i) done P os K s s'
  | Gone => going 0 None done P os K s s'
  | Over => over (P ++ until down P os) s'
  end.
Proof.
  intros H R P. apply drive_cons in R. destruct R as (f & s1 & K1 & R1 & R2). cbn [step] in R1.
  destruct (q_live H eq_refl) as (L1 & L2 & L3 & L4). rewrite L1, L2 in R1. cbn [orb negb] in R1.
  destruct (@Q_log _ _ _ _ (TIn i m) H I) as [H1 O1].
  destruct m as [a|x| |]; cbn [play].
  - inversion R1; subst s1 K1; clear R1. cbn [app] in R2. apply drive_cons in R2. destruct R2 as (f2 & s2 & K2 & R2 & R3).
    destruct (tell_Q _ H1 R2) as (-> & F & Z). rewrite O1 in Z. cbn [is_closing orb] in Z. fold P in Z. destruct (down (P ++ [Nxt a])) eqn:D.
    + left. exists (P ++ [Nxt a]). split; [exact (drive_over _ _ Z R3)|]. intros x. cbn. now rewrite D.
    + right. destruct Z as [Z1 Z2]. cbn [app] in R3. apply drive_cons in R3. destruct R3 as (f3 & s3 & K3 & R3 & R4).
      cbn [step] in R3. rewrite (q_open Z1) in R3. inversion R3; subst s3 K3. split; [intros x; cbn; now rewrite D|]. exists f3, s2. auto.
  - assert (Y : over (P ++ [Err x]) s').
    { destruct (set_error (s_down (log s (TIn i (Err x))))) as [d|] eqn:Ed; [|discriminate]. inversion R1; subst s1 K1; clear R1.
      cbn [app] in R2. apply drive_cons in R2. destruct R2 as (f2 & s2 & K2 & R2 & R3). cbn [step with_down with_queue s_told log] in R2. rewrite (q_open H) in R2.
      destruct (tell_out down (Err x) (s_told s) (q_open H)) as [T1 T2]. eapply drive_over; [|exact R3].
      match type of R2 with Some (?X, _) = _ => assert (E2 : s2 = X) by (now inversion R2) end. subst s2.
      split; [cbn [log with_told s_told with_counts with_down with_inner with_queue with_torn]; now rewrite T2|]. rewrite outs_log. cbn [with_told with_down with_queue s_tr]. now rewrite O1. }
    rewrite until_one. exact Y.
  - assert (Ks : match k with Concurrent _ => if i_oc (s_inner (log s (TIn i Cmp)) i) then [KAdvance] else [] | _ => [] end ++ [KInnerCompleted i; KUnsub i] = [@KInnerCompleted A E i; KUnsub i]) by (destruct k; [contradiction| |]; auto).
    rewrite Ks in R1. inversion R1; subst s1 K1; clear R1 Ks. set (s2 := with_inner _ _ _) in R2.
    cbn [app] in R2. apply drive_cons in R2. destruct R2 as (f2 & s3 & K3 & R2 & R3). cbn [step] in R2.
    change (s_nc s2) with (s_nc s) in R2. rewrite (q_nc H) in R2. cbn [Nat.add] in R2. set (s4 := with_counts s2 _ _) in R2.
    assert (C : can_downstream_complete s4 = done).
    { unfold can_downstream_complete, queue_empty. cbn. rewrite (q_queue H), (q_done H), (q_down H). cbn. apply andb_true_r. }
    rewrite C in R2. destruct done.
    + destruct (set_complete (s_down s4)) as [d|]; [|discriminate]. inversion R2; subst s3 K3; clear R2. rewrite until_one.
      cbn [app] in R3. apply drive_cons in R3. destruct R3 as (f3 & s5 & K5 & R3 & R4). cbn [step with_down s4 with_counts s2 with_inner s_told log] in R3. rewrite (q_open H) in R3.
      destruct (tell_out down Cmp (s_told s) (q_open H)) as [T1 T2]. eapply drive_over; [|exact R4].
      match type of R3 with Some (?X, _) = _ => assert (E2 : s5 = X) by (now inversion R3) end. subst s5.
      split; [cbn [log with_told s_told with_counts with_down with_inner with_queue with_torn]; now rewrite T2|]. rewrite outs_log. cbn [with_told with_down with_counts with_inner with_queue s_tr]. unfold s4, s2. cbn [with_counts with_inner s_tr]. now rewrite O1.
    + inversion R2; subst s3 K3; clear R2. cbn [app] in R3. apply drive_cons in R3. destruct R3 as (f3 & s5 & K5 & R3 & R4).
      cbn [step] in R3. unfold do_unsub in R3.
      assert (Ei : s_inner s4 i = set_completed (s_inner s i)) by (cbn; now rewrite Nat.eqb_refl). rewrite Ei in R3.
      assert (Cu : can_downstream_unsubscribe s4 = false).
      { unfold can_downstream_unsubscribe. cbn. rewrite (q_nu H), (q_err H), (q_down H), andb_false_r. auto. }
      rewrite Cu in R3. change (s_nu s4) with (s_nu s) in R3. rewrite (q_nu H) in R3. change (is_unsubscribed (s_down s4)) with (is_unsubscribed (s_down s)) in R3.
      rewrite (q_du H) in R3. cbn [set_completed i_closed i_completed i_ou] in R3. rewrite L2, L4 in R3. cbn [negb andb Nat.add minus_one] in R3.
      inversion R3; subst s5 K5; clear R3. set (s6 := with_counts _ _ _) in R4.
      assert (O6 : outs (s_tr s6) = P) by (unfold s6; cbn [with_counts with_down s_tr log s4 s2 with_inner]; now rewrite !outs_snoc, !app_nil_r).
      assert (Q6 : Q 0 None false s6).
      { destruct H. constructor; try (cbn; auto; discriminate).
        - rewrite O6. exact q_out0.
        - intros j _. unfold gone. cbn. destruct (j =? i) eqn:Z; [now left|]. apply q_gone0. intros Y. injection Y as ->. now rewrite Nat.eqb_refl in Z.
        - intros j Hj. left. cbn. destruct (j =? i) eqn:Z; [auto|]. destruct (q_cur0 j Hj) as [Y|Y]; auto. injection Y as ->. now rewrite Nat.eqb_refl in Z. }
      cbn [app] in R4. apply drive_cons in R4. destruct R4 as (f4 & s7 & K7 & R4 & R5). destruct (on_unsub_Q _ Q6 R4) as [-> ->].
      split; [apply goes_nil|]. exists f4, s6. split; auto. split; [apply frame_same; auto; cbn; intros j Hj; destruct (j =? i) eqn:Z; auto|]. split; [now rewrite app_nil_r|exact R5].
  - inversion R1; subst s1 K1; clear R1. cbn [app] in R2. apply drive_cons in R2. destruct R2 as (f2 & s2 & K2 & R2 & R3). cbn [step] in R2.
    destruct (do_unsub_Q H1 R2) as (-> & F & Z1 & Z2). rewrite O1 in Z2. fold P in Z2. cbn [app] in R3. apply drive_cons in R3. destruct R3 as (f3 & s3 & K3 & R3 & R4).
    destruct (on_unsub_Q _ Z1 R3) as [-> ->]. destruct done; cbn [andb Nat.eqb] in R4.
    + rewrite until_one, <- Z2. cbn [app] in R4. eapply tear_end; eauto.
    + split; [apply goes_nil|]. exists f3, s2. split; auto. split; auto. split; [now rewrite app_nil_r|exact R4].
Qed.

(** Calls of one that is over are not heard. *)
Lemma skip_calls i l K : forall fuel s s', gone s i -> drive down k fuel (map (KCall i) l ++ K) s = Fine s' -> exists f, drive down k f K s = Fine s'.
Proof.
  induction l as [|c l IH]; intros fuel s s' Hg R; [eauto|]. cbn [map app] in R. apply drive_cons in R. destruct R as (f & s1 & K1 & R1 & R2).
  cbn [step] in R1. assert (Z : i_closed (s_inner s i) || negb (i_sub (s_inner s i)) = true) by (destruct Hg as [->| ->]; auto using orb_true_r). rewrite Z in R1.
  inversion R1; subst s1 K1. eapply IH; eauto.
Qed.
Lemma calls_Q done i K : forall l fuel s s', Q 0 (Some i) done s -> drive down k fuel (map (KCall i) l ++ K) s = Fine s' ->
  let P := outs (s_tr s) in let (os, f) := play done l in
  match f with
  | Going => halted P os s' \/ going 0 (Some i) done P os K s s'
  | Gone => halted P os s' \/ going 0 None done P os K s s'
  | Over => over (P ++ until down P os) s'
  end.
Proof.
  induction l as [|c l IH]; intros fuel s s' H R P.
  - cbn. right. split; [apply goes_nil|]. exists fuel, s. split; auto. split; [apply frame_refl|]. now rewrite app_nil_r.
  - cbn [map app] in R. pose proof (call_Q _ _ _ H R) as C. fold P in C. destruct c as [a|x| |]; cbn [play] in *; auto.
    + destruct C as [[o (C1 & C2)]|(C1 & f & s1 & C2 & C3 & C4 & C5)].
      * cbn [app] in C2. destruct (play done l) as [os fa]. destruct fa; try (left; exists o; split; auto; intros x; apply C2). rewrite C2. exact C1.
      * specialize (IH _ _ _ C2 C5). rewrite C4 in IH. cbv zeta in IH. destruct (play done l) as [os fa].
        assert (Hh : halted (P ++ [Nxt a]) os s' -> halted P (Nxt a :: os) s').
        { intros (o & Z1 & Z2). exists o. split; auto. intros x. specialize (Z2 x). rewrite <- app_assoc in Z2. rewrite <- Z2. f_equal. apply (C1 (os ++ x)). }
        assert (Hg : forall cur, going 0 cur done (P ++ [Nxt a]) os K s1 s' -> going 0 cur done P (Nxt a :: os) K s s').
        { intros cur (Z1 & f' & s2 & Z2 & Z3 & Z4 & Z5). split; [apply (goes_app C1 Z1)|]. exists f', s2. split; auto. split; [eapply frame_trans; eauto|]. split; auto. now rewrite Z4, <- app_assoc. }
        destruct fa.
        -- destruct IH; auto.
        -- destruct IH; auto.
        -- rewrite <- app_assoc in IH. replace (until down P (Nxt a :: os)) with ([Nxt a] ++ until down (P ++ [Nxt a]) os); auto. symmetry. apply (C1 os).
    + destruct done; auto. destruct C as (C1 & f & s1 & C2 & C3 & C4 & C5). right. split; auto. assert (Cg : gone s1 i) by (now apply (q_gone C2)); destruct (@skip_calls i l K f s1 s' Cg C5) as [f' C6]. exists f', s1. auto.
    + destruct done; auto. destruct C as (C1 & f & s1 & C2 & C3 & C4 & C5). right. split; auto. assert (Cg : gone s1 i) by (now apply (q_gone C2)); destruct (@skip_calls i l K f s1 s' Cg C5) as [f' C6]. exists f', s1. auto.
Qed.

(** *** Between the calls. *)
Record rest (n : nat) (cur : option nat) (done : bool) s : Prop := {
  t_q : Q 0 cur done s;
  t_n : s_arrived s = n;
  t_cur : forall i, cur = Some i -> s_cur s = Some i;
  t_idle : s_busy s = []
}.
Lemma halted_rest P os s : halted P os s -> forall y, outs (s_tr s) = P ++ until down P (os ++ y).
Proof. intros (o & [_ H1] & H2) y. now rewrite H1, H2. Qed.
Lemma unsub_cur p cur done fuel K s s' : Q p cur done s -> s_busy s = [] -> forall c0, (forall j, c0 = Some j -> i_closed (s_inner s j) = true \/ cur = Some j) -> (forall j, cur = Some j -> c0 = Some j) ->
  p <> 0 -> drive down k fuel (match c0 with Some j => [KUnsubFrom j] | None => [] end ++ K) s = Fine s' ->
  exists f s1, Q p None done s1 /\ frame s s1 /\ outs (s_tr s1) = outs (s_tr s) /\ drive down k f K s1 = Fine s'.
Proof.
  intros H Hb c0 H1 H2 Hp R. destruct c0 as [j|].
  - cbn [app] in R. apply drive_cons in R. destruct R as (f & s1 & K1 & R1 & R2). cbn [step] in R1. rewrite Hb in R1. cbn [existsb] in R1.
    destruct (H1 j eq_refl) as [Hc|Hc].
    + unfold do_unsub in R1. rewrite Hc in R1. inversion R1; subst s1 K1. exists f, s. split; [|split; [apply frame_refl|auto]].
      destruct cur as [i|]; auto. specialize (H2 i eq_refl). injection H2 as ->. destruct (q_live H eq_refl) as (_ & Z & _). congruence.
    + subst cur. destruct (do_unsub_Q H R1) as (-> & F & Z1 & Z2). cbn [app] in R2. apply drive_cons in R2. destruct R2 as (f3 & s3 & K3 & R3 & R4).
      destruct (on_unsub_Q _ Z1 R3) as [-> ->]. apply Nat.eqb_neq in Hp. rewrite Hp, andb_false_r in R4. exists f3, s1. auto.
  - exists fuel, s. cbn [app] in R. split; [|split; [apply frame_refl|auto]]. destruct cur as [i|]; auto. specialize (H2 i eq_refl). discriminate.
Qed.
Lemma create_Q done i s s' K1 l : Q 1 None done s -> step down k (KCreate i l) s = Some (s', K1) ->
  K1 = map (KCall i) l ++ [KSubscribed i] /\ frame s s' /\ Q 0 (Some i) done s' /\ outs (s_tr s') = outs (s_tr s).
Proof.
  intros H R. cbn [step] in R.
  assert (Z : s' = log (with_inner s i (mkInner true false false 0 true true)) (TSub i) /\ K1 = map (KCall i) l ++ [KSubscribed i]) by (destruct k; [contradiction| |]; inversion R; auto).
  destruct Z as [-> ->]. split; auto. split; [apply frame_same; auto; cbn; intros j Hj; destruct (j =? i) eqn:Z; auto|]. assert (O : outs (s_tr s ++ [TSub i]) = outs (s_tr s)) by (now rewrite outs_snoc, app_nil_r).
  split; [|exact O]. destruct H. constructor; auto; cbn [log with_inner s_told s_tr s_inner s_cur].
  - now rewrite O.
  - intros j Hj. injection Hj as <-. now rewrite Nat.eqb_refl.
  - intros j Hj. unfold gone. cbn. destruct (j =? i) eqn:Z; [apply Nat.eqb_eq in Z; subst; now destruct Hj|]. now apply q_gone0.
  - intros j Hj. destruct (j =? i) eqn:Z; [apply Nat.eqb_eq in Z; subst; now right|]. destruct (q_cur0 j Hj) as [Y|Y]; [auto|discriminate].
Qed.

(** After an arrival that is listened to. *)
Definition after (n : nat) (done : bool) (l : list call) (P : list call) s' : Prop :=
  let (os, f) := play done l in
  match f with
  | Going => halted P os s' \/ (goes P os /\ rest (S n) (Some n) done s' /\ outs (s_tr s') = P ++ os)
  | Gone => halted P os s' \/ (goes P os /\ rest (S n) None done s' /\ outs (s_tr s') = P ++ os)
  | Over => over (P ++ until down P os) s'
  end.
Lemma subscribed_Q n done cur Kc fuel s s' : Q 0 cur done s -> (cur = Some n \/ cur = None) -> s_arrived s = S n -> s_busy s = [] -> s_cur s = None ->
  Kc = [] \/ Kc = [KCheck] -> drive down k fuel (KSubscribed n :: Kc) s = Fine s' -> i_closed (s_inner s n) = (if cur then false else true) ->
  rest (S n) cur done s' /\ outs (s_tr s') = outs (s_tr s).
Proof.
  intros H Hc Hn Hb Hs HK R Hx. apply drive_cons in R. destruct R as (f & s1 & K1 & R1 & R2). cbn [step] in R1. rewrite Hx in R1.
  assert (Z : K1 = [] /\ rest (S n) cur done s1 /\ outs (s_tr s1) = outs (s_tr s)).
  { destruct Hc as [-> | ->].
    - assert (Z : s1 = with_cur s (Some n) /\ K1 = []) by (destruct k; [contradiction| |]; inversion R1; auto). destruct Z as [-> ->]. split; auto. split; auto.
      constructor; auto. destruct H. constructor; auto.
    - inversion R1; subst s1 K1. split; auto. split; auto. constructor; auto. discriminate. }
  destruct Z as (-> & Z1 & Z2). cbn [app] in R2. destruct HK as [-> | ->].
  - apply drive_nil in R2. subst. auto.
  - apply drive_cons in R2. destruct R2 as (f2 & s2 & K2 & R2 & R3). cbn [step] in R2. rewrite (q_open (t_q Z1)) in R2. inversion R2; subst s2 K2. apply drive_nil in R3. subst. auto.
Qed.
Lemma arrive_Q n done l Kc fuel s s' : Q 1 None done s -> s_arrived s = S n -> s_busy s = [] -> s_cur s = None -> Kc = [] \/ Kc = [KCheck] ->
  drive down k fuel (KCreate n l :: Kc) s = Fine s' -> after n done l (outs (s_tr s)) s'.
Proof.
  intros H Hn Hb Hs HK R. apply drive_cons in R. destruct R as (f & s1 & K1 & R1 & R2). destruct (create_Q H R1) as (-> & F & H1 & O1).
  rewrite <- app_assoc in R2. pose proof (@calls_Q done n _ l _ _ _ H1 R2) as C. rewrite O1 in C. cbv zeta in C. unfold after.
  destruct F as (F1 & F2 & F3 & F4).
  destruct (play done l) as [os fa]. destruct fa; auto; (destruct C as [C|(C1 & f1 & s2 & C2 & (G1 & G2 & G3 & G4) & C4 & C5)]; [now left|right]).
  - cbn [app] in C5. apply subscribed_Q with (cur := Some n) (done := done) in C5; auto; try congruence; [|apply (q_live C2 eq_refl)]. destruct C5. split; auto. split; auto. congruence.
  - assert (Y : gone s2 n) by (now apply (q_gone C2)).
    assert (Y' : i_closed (s_inner s2 n) = true) by (destruct Y as [Y|Y]; auto; destruct (q_live H1 eq_refl) as (Z & _); apply G4 in Z; congruence).
    cbn [app] in C5. apply subscribed_Q with (cur := None) (done := done) in C5; auto; try congruence. destruct C5. split; auto. split; auto. congruence.
Qed.

(** *** Any history. *)
Definition latest : bool := match k with Switch => true | _ => false end.
Lemma until_nil P : until down P [] = []. Proof. reflexivity. Qed.
Lemma over_end o fuel h s s' : over o s -> flatten down k fuel h s = Fine s' -> outs (s_tr s') = o.
Proof. intros H R. apply (flatten_over _ _ H R). Qed.

Lemma listened_from fuel : forall h n cur done s s', rest n cur done s -> flatten down k fuel h s = Fine s' ->
  outs (s_tr s') = outs (s_tr s) ++ until down (outs (s_tr s)) (listened latest n cur done h).
Proof.
  induction h as [|a h IH]; intros n cur done s s' H R.
  { injection R as <-. cbn. now rewrite app_nil_r. }
  cbn [flatten] in R. destruct (perform k a s) as [[s1 K]|] eqn:P; [|discriminate]. destruct (drive down k fuel K s1) as [s2| |] eqn:D; try discriminate.
  assert (Ht : is_torn k s = false) by (destruct k; [contradiction| |]; apply (q_torn (t_q H))).
  set (P0 := outs (s_tr s)). assert (Hq := t_q H). assert (Kk : k = Switch \/ k = Exhaust) by (destruct k; [contradiction|auto|auto]).
  assert (Lg : forall e, match e with TOut _ => False | _ => True end -> outs (s_tr s ++ [e]) = P0).
  { intros e He. rewrite outs_snoc. destruct e; try apply app_nil_r. destruct He. }
  (* what is done next *)
  assert (Hh : forall os x, halted P0 os s2 -> outs (s_tr s') = P0 ++ until down P0 (os ++ x)).
  { intros os x (o & Z1 & Z2). rewrite Z2. exact (over_end _ _ Z1 R). }
  assert (Hg : forall os n' cur', goes P0 os /\ rest n' cur' done s2 /\ outs (s_tr s2) = P0 ++ os -> outs (s_tr s') = P0 ++ until down P0 (os ++ listened latest n' cur' done h)).
  { intros os n' cur' (Z1 & Z2 & Z3). rewrite (IH _ _ _ _ _ Z2 R), Z3, Z1, <- app_assoc. auto. }
  assert (Ho : forall os, over (P0 ++ until down P0 os) s2 -> outs (s_tr s') = P0 ++ until down P0 (os ++ [])).
  { intros os Z. rewrite app_nil_r. exact (over_end _ _ Z R). }
  assert (He : forall m, over (P0 ++ [m]) s2 -> outs (s_tr s') = P0 ++ until down P0 [m]).
  { intros m Z. rewrite until_one. exact (over_end _ _ Z R). }
  (* the state after an arrival *)
  assert (Sp : forall b, b = with_cur (with_counts (log (with_arrived s (S (s_arrived s))) (TArrive (s_arrived s))) (S (s_nc s)) (S (s_nu s))) None ->
    Q 1 cur done b /\ outs (s_tr b) = P0).
  { intros b ->. assert (O : outs (s_tr s ++ [TArrive (s_arrived s)]) = P0) by now apply Lg. split; [|exact O].
    destruct Hq. constructor; auto; cbn [with_cur with_counts log with_arrived s_told s_tr s_nc s_nu s_cur].
    - now rewrite O.
    - now rewrite q_nc0, Nat.add_0_r, Nat.add_1_r.
    - now rewrite q_nu0, Nat.add_0_r, Nat.add_1_r.
    - discriminate. }
  assert (Ar : forall l Kc b, b = with_cur (with_counts (log (with_arrived s (S (s_arrived s))) (TArrive (s_arrived s))) (S (s_nc s)) (S (s_nu s))) None ->
    (Kc = [] \/ Kc = [KCheck]) -> drive down k fuel (match s_cur s with Some j => [KUnsubFrom j] | None => [] end ++ KCreate (s_arrived s) l :: Kc) b = Fine s2 -> after n done l P0 s2).
  { intros l Kc b Eb HK Db. destruct (Sp b Eb) as [Z1 Z2].
    assert (X : exists f s3, Q 1 None done s3 /\ frame b s3 /\ outs (s_tr s3) = outs (s_tr b) /\ drive down k f (KCreate (s_arrived s) l :: Kc) s3 = Fine s2).
    { apply (@unsub_cur 1 cur done fuel (KCreate (s_arrived s) l :: Kc) b s2 Z1) with (c0 := s_cur s); auto.
      - subst b. exact (t_idle H).
      - subst b. intros j Hj. exact (q_cur Hq Hj).
      - apply (t_cur H). }
    destruct X as (f & s3 & Y1 & (F1 & F2 & F3 & _) & Y3 & Y4). rewrite (t_n H) in Y4. rewrite <- Z2, <- Y3. eapply arrive_Q; eauto.
    - rewrite F1. subst b. cbn. now rewrite (t_n H).
    - rewrite F2. subst b. exact (t_idle H).
    - rewrite F3. now subst b. }
  assert (Fin : forall l, after n done l P0 s2 -> outs (s_tr s') = P0 ++ until down P0 (let (os, f) := play done l in os ++ match f with
    | Going => listened latest (S n) (Some n) done h | Gone => listened latest (S n) None done h | Over => [] end)).
  { intros l Z. unfold after in Z. destruct (play done l) as [os fa]. destruct fa; auto; destruct Z; auto. }
  destruct a as [l|x| | |i c]; cbn [perform] in P; cbn [listened].
  - rewrite Ht in P. destruct Kk as [Ek|Ek]; (assert (El : latest = match k with Switch => true | _ => false end) by reflexivity); rewrite Ek in P, El; rewrite El in *.
    + inversion P; subst s1 K. rewrite (Fin l) by (eapply Ar; eauto). destruct cur; reflexivity.
    + set (s0 := log _ _) in P. change (s_nu s0) with (s_nu s) in P. rewrite (q_nu Hq) in P. destruct cur as [j|]; cbn [Nat.add Nat.eqb] in P.
      * inversion P; subst s1 K. apply drive_nil in D. subst s2. apply (Hg [] (S n) (Some j)). split; [apply goes_nil|]. rewrite app_nil_r. split; [|now apply Lg].
        constructor; try apply H; [|cbn; now rewrite (t_n H)]. apply (@Q_log _ _ _ (with_arrived s (S (s_arrived s))) (TArrive (s_arrived s))); [|exact I]. destruct Hq; constructor; auto.
      * inversion P; subst s1 K. rewrite (Fin l); [reflexivity|]. apply (Ar l [] _ eq_refl); [now left|]. rewrite (q_nu Hq). exact D.
  - rewrite Ht in P. set (s0 := log _ _) in P. destruct (set_error (s_up s0)) as [u|]; [|discriminate].
    assert (X : exists b K0, K = KTell (Err x) :: K0 /\ s1 = b /\ t_shut (s_told b) = false /\ t_out (s_told b) = P0 /\ outs (s_tr b) = P0).
    { exists s1. destruct k; [contradiction| |]; inversion P; subst s1 K; (eexists; split; [reflexivity|]; split; [reflexivity|]; split; [exact (q_open Hq)|]; split; [exact (q_out Hq)|now apply Lg]). }
    destruct X as (b & K0 & -> & -> & X1 & X2 & X3). apply He. apply drive_cons in D. destruct D as (f & s3 & K3 & D1 & D2). eapply drive_over; [|exact D2].
    cbn [step] in D1. rewrite X1 in D1. destruct (tell_out down (Err x) (s_told b) X1) as [T1 T2].
    match type of D1 with Some (?X, _) = _ => assert (E2 : s3 = X) by (now inversion D1) end. subst s3.
    split; [cbn [log with_told s_told]; now rewrite T2|]. rewrite outs_log. cbn [with_told s_tr]. now rewrite X3.
  - rewrite Ht in P. set (s0 := log _ _) in P. destruct (set_complete (s_up s0)) as [u|] eqn:Eu; [|discriminate]. apply sc_some in Eu. destruct Eu as (_ & U1 & U2 & _).
    destruct (set_unsubscribe u) as [u'|] eqn:Eu'; [|discriminate]. apply su_some in Eu'. destruct Eu' as (_ & V1 & V2 & V3).
    assert (Ec : can_downstream_complete (with_up s0 u') = if cur then false else true).
    { unfold can_downstream_complete, queue_empty. cbn. rewrite (q_queue Hq), (q_nc Hq), (q_down Hq), V3, U1. now destruct cur. }
    rewrite Ec in P. destruct cur as [j|].
    + inversion P; subst s1 K. apply drive_nil in D. subst s2.
      assert (Z : rest n (Some j) true (with_up s0 u')).
      { constructor; try apply H. destruct Hq. constructor; auto; cbn [with_up s_up s0 log s_told s_tr]; try (change (s_up s0) with (s_up s) in *; congruence).
        now rewrite Lg. }
      rewrite (IH _ _ _ _ _ Z R). replace (outs (s_tr (with_up s0 u'))) with P0; auto. symmetry. now apply Lg.
    + assert (X : exists b K0, K = KTell Cmp :: K0 /\ s1 = b /\ t_shut (s_told b) = false /\ t_out (s_told b) = P0 /\ outs (s_tr b) = P0).
      { exists s1. destruct k; [contradiction| |]; inversion P; subst s1 K; (eexists; split; [reflexivity|]; split; [reflexivity|]; split; [exact (q_open Hq)|]; split; [exact (q_out Hq)|now apply Lg]). }
      destruct X as (b & K0 & -> & -> & X1 & X2 & X3). apply He. apply drive_cons in D. destruct D as (f & s3 & K3 & D1 & D2). eapply drive_over; [|exact D2].
      cbn [step] in D1. rewrite X1 in D1. destruct (tell_out down Cmp (s_told b) X1) as [T1 T2].
      match type of D1 with Some (?X, _) = _ => assert (E2 : s3 = X) by (now inversion D1) end. subst s3.
      split; [cbn [log with_told s_told]; now rewrite T2|]. rewrite outs_log. cbn [with_told s_tr]. now rewrite X3.
  - rewrite Ht in P. unfold unsubscribe in P. replace (is_torn k (log s (TUp Uns))) with false in P by (symmetry; exact Ht).
    destruct (@Q_log _ _ _ _ (TUp Uns) Hq I) as [Z1 Z2]. apply He. destruct Kk as [Ek|Ek]; rewrite Ek in P.
    + inversion P; subst s1 K. assert (Y : Q 0 cur done (with_cur (log s (TUp Uns)) None)) by (destruct Z1; constructor; auto; discriminate).
      pose proof (tear_end _ _ Y D) as X. cbn [with_cur s_tr] in X. now rewrite Z2 in X.
    + inversion P; subst s1 K. destruct (s_cur s) as [j|] eqn:Ej.
      * cbn [app] in D. apply drive_cons in D. destruct D as (f & s3 & K3 & D1 & D2). cbn [step] in D1. replace (s_busy (log s (TUp Uns))) with (@nil nat) in D1 by (symmetry; exact (t_idle H)). cbn [existsb] in D1.
        destruct (q_cur Z1 Ej) as [Hc|Hc].
        -- unfold do_unsub in D1. rewrite Hc in D1. inversion D1; subst s3 K3. pose proof (tear_end _ _ Z1 D2) as X. now rewrite Z2 in X.
        -- subst cur. destruct (do_unsub_Q Z1 D1) as (-> & _ & Y1 & Y2). cbn [app] in D2. apply drive_cons in D2. destruct D2 as (f3 & s4 & K4 & D3 & D4).
           destruct (on_unsub_Q _ Y1 D3) as [-> ->]. rewrite Z2 in Y2. fold P0 in Y2. rewrite <- Y2. destruct done; cbn [andb Nat.eqb] in D4; cbn [app] in D4; eapply tear_end; eauto.
      * pose proof (tear_end _ _ Z1 D) as X. now rewrite Z2 in X.
  - assert (Hc : match cur with Some j => i =? j | None => false end = negb (i_closed (s_inner s i) || negb (i_sub (s_inner s i)))).
    { destruct cur as [j|]; [destruct (i =? j) eqn:Z|].
      - apply Nat.eqb_eq in Z. subst j. destruct (q_live Hq eq_refl) as (-> & -> & _). auto.
      - assert (Y : gone s i) by (apply (q_gone Hq); intros Q0; injection Q0 as ->; now rewrite Nat.eqb_refl in Z). destruct Y as [-> | ->]; auto. now rewrite orb_true_r.
      - assert (Y : gone s i) by (apply (q_gone Hq); discriminate). destruct Y as [-> | ->]; auto. now rewrite orb_true_r. }
    rewrite Hc. destruct (i_closed (s_inner s i) || negb (i_sub (s_inner s i))) eqn:Z; cbn [negb].
    + inversion P; subst s1 K. apply drive_nil in D. subst s2. apply (IH _ _ _ _ _ H R).
    + inversion P; subst s1 K. destruct cur as [j|]; [|discriminate]. apply Nat.eqb_eq in Hc. subst j.
      set (b := with_busy s (i :: s_busy s)) in D. assert (Hb : Q 0 (Some i) done b) by (destruct Hq; constructor; auto).
      pose proof (call_Q _ _ _ Hb D) as C. change (outs (s_tr b)) with P0 in C. cbv zeta in C.
      assert (G : forall cur' os, (forall i0, cur' = Some i0 -> i0 = i) -> going 0 cur' done P0 os [KFree i] b s2 -> goes P0 os /\ rest n cur' done s2 /\ outs (s_tr s2) = P0 ++ os).
      { intros cur' os Hi (Y1 & f & s3 & Y2 & (F1 & F2 & F3 & _) & Y4 & Y5). split; auto. apply drive_cons in Y5. destruct Y5 as (f5 & s5 & K5 & Y5 & Y6). cbn [step] in Y5. inversion Y5; subst s5 K5.
        apply drive_nil in Y6. subst s2. split; [|exact Y4]. constructor; auto.
        - destruct Y2. constructor; auto.
        - cbn. rewrite F1. exact (t_n H).
        - cbn. rewrite F3. intros i0 Hi0. rewrite (Hi _ Hi0). now apply (t_cur H).
        - cbn. rewrite F2. unfold b. cbn. rewrite (t_idle H). cbn. now rewrite Nat.eqb_refl. }
      destruct (play done [c]) as [os fa]. destruct fa.
      * destruct C as [C|C]; auto. apply Hg, G; auto. intros i0 Q0. now injection Q0.
      * apply Hg, G; auto. discriminate.
      * auto.
Qed.

Lemma init_rest : rest 0 None false (@init A E).
Proof.
  constructor; auto; try discriminate. constructor; auto; try discriminate. intros j _. right. reflexivity.
Qed.
Lemma listened_all fuel h s : flatten down k fuel h init = Fine s -> outs (s_tr s) = until down [] (listened latest 0 None false h).
Proof. intros R. apply (listened_from _ _ init_rest R). Qed.
End Flat.

Lemma switch_is A E down fuel (h : list (act A E)) s : flatten down Switch fuel h init = Fine s -> outs (s_tr s) = until down [] (switched h).
Proof. exact (@listened_all A E down Switch I fuel h s). Qed.
Lemma exhaust_is A E down fuel (h : list (act A E)) s : flatten down Exhaust fuel h init = Fine s -> outs (s_tr s) = until down [] (exhausted h).
Proof. exact (@listened_all A E down Exhaust I fuel h s). Qed.

(** *** The results exist. *)
Lemma switch_runs A E down (h : list (act A E)) : (forall l, down l = false) -> LifeProofs.contract false false (outer h) ->
  exists fuel, forall fuel', fuel <= fuel' -> exists s, flatten down Switch fuel' h init = Fine s /\ outs (s_tr s) = switched h.
Proof.
  intros Hd Hc. destruct (@passive_runs A E down Switch h Hd I Hc) as [fuel H]. exists fuel. intros f Hf. destruct (H f Hf) as [s Hs]. exists s. split; auto.
  rewrite (switch_is _ _ _ Hs). assert (Z : forall l P, until down P l = l) by (induction l as [|c l IH]; intros P; cbn; auto; now rewrite Hd, IH). apply Z.
Qed.
Lemma exhaust_runs A E down (h : list (act A E)) : (forall l, down l = false) -> LifeProofs.contract false false (outer h) ->
  exists fuel, forall fuel', fuel <= fuel' -> exists s, flatten down Exhaust fuel' h init = Fine s /\ outs (s_tr s) = exhausted h.
Proof.
  intros Hd Hc. destruct (@passive_runs A E down Exhaust h Hd I Hc) as [fuel H]. exists fuel. intros f Hf. destruct (H f Hf) as [s Hs]. exists s. split; auto.
  rewrite (exhaust_is _ _ _ Hs). assert (Z : forall l P, until down P l = l) by (induction l as [|c l IH]; intros P; cbn; auto; now rewrite Hd, IH). apply Z.
Qed.

(** *** The operators. *)
Section Map.
Variables A E U X M : Type.
Variable mapper : M -> U -> M * list (ncall A E).
Variable error_mapper : X -> E.
Variable down : list (ncall A E) -> bool.
Variable k : kind.
Notation run := (map_run down k mapper error_mapper).

(** What reaches the flattening subscriber. *)
Fixpoint reaches (m : M) (e : bool) (h : list (oact A E U X)) : list (act A E) :=
  match h with
  | [] => []
  | a :: h' => match deliver mapper error_mapper a m e with (m', e', o) => match o with Some b => [b] | None => [] end ++ reaches m' e' h' end
  end.
Lemma map_run_is fuel : forall h m e s, snd (run fuel h m e s) = flatten down k fuel (reaches m e h) s.
Proof.
  induction h as [|a h IH]; intros m e s; auto. cbn [map_run reaches]. destruct (deliver mapper error_mapper a m e) as [[m' e'] [b|]]; cbn [app]; auto.
  cbn [flatten]. destruct (perform k b s) as [[s1 K]|]; auto. destruct (drive down k fuel K s1); auto.
Qed.
Lemma captured_is fuel : forall h m e s s', snd (run fuel h m e s) = Fine s' -> fst (run fuel h m e s) = captured mapper m (values h).
Proof.
  induction h as [|a h IH]; intros m e s s' R; auto. cbn [map_run] in *. destruct a as [u|x| | |i c]; cbn [deliver] in *.
  - destruct (mapper m u) as [m' l] eqn:Z. cbn [values flat_map app captured fold_left]. rewrite Z. destruct (perform k _ s) as [[s1 K]|]; [|discriminate]. destruct (drive down k fuel K s1); try discriminate. eapply IH; eauto.
  - destruct e; cbn [values flat_map app]; [|eapply IH; eauto]. destruct (perform k _ s) as [[s1 K]|]; [|discriminate]. destruct (drive down k fuel K s1); try discriminate. eapply IH; eauto.
  - destruct (perform k _ s) as [[s1 K]|]; [|discriminate]. destruct (drive down k fuel K s1); try discriminate. eapply IH; eauto.
  - destruct (perform k _ s) as [[s1 K]|]; [|discriminate]. destruct (drive down k fuel K s1); try discriminate. eapply IH; eauto.
  - destruct (perform k _ s) as [[s1 K]|]; [|discriminate]. destruct (drive down k fuel K s1); try discriminate. eapply IH; eauto.
Qed.
Lemma reaches_false : forall h m, errors h = 0 -> reaches m false h = mapped mapper error_mapper m h.
Proof.
  induction h as [|a h IH]; intros m H; auto. cbn [reaches mapped]. destruct a as [u|x| | |i c]; cbn [deliver app]; try discriminate; try (rewrite IH; auto; fail).
  destruct (mapper m u) as [m' l]. cbn [app fst snd]. now rewrite IH.
Qed.
Lemma reaches_all : forall h m, errors h <= 1 -> reaches m true h = mapped mapper error_mapper m h.
Proof.
  induction h as [|a h IH]; intros m H; auto. cbn [reaches mapped]. destruct a as [u|x| | |i c]; cbn [deliver app]; try (rewrite IH; auto; fail).
  - destruct (mapper m u) as [m' l]. cbn [app fst snd]. now rewrite IH.
  - rewrite reaches_false; auto. unfold errors in *. cbn in H. lia.
Qed.
Lemma map_is fuel h m : errors h <= 1 -> snd (map_operator down k mapper error_mapper fuel h m) = flatten down k fuel (mapped mapper error_mapper m h) init.
Proof. intros H. unfold map_operator. now rewrite map_run_is, reaches_all. Qed.
(** After an error nothing matters. *)
Lemma listened_reaches lat : forall h m n cur done, listened lat n cur done (reaches m true h) = listened lat n cur done (mapped mapper error_mapper m h).
Proof.
  induction h as [|a h IH]; intros m n cur done; auto. cbn [reaches mapped]. destruct a as [u|x| | |i c]; cbn [deliver app listened]; auto.
  - destruct (mapper m u) as [m' l]. cbn [app fst snd listened]. destruct lat, cur; auto; destruct (play done l) as [os []]; auto; now rewrite IH.
  - destruct cur; auto.
  - destruct (match cur with Some j => i =? j | None => false end); auto. destruct (play done [c]) as [os []]; auto; now rewrite IH.
Qed.
Lemma mapper_is fuel h m s : snd (map_operator down k mapper error_mapper fuel h m) = Fine s -> fst (map_operator down k mapper error_mapper fuel h m) = captured mapper m (values h).
Proof. apply captured_is. Qed.
End Map.
Lemma switch_map_is A E U X M (mapper : M -> U -> M * list (ncall A E)) (g : X -> E) down fuel h m s :
  snd (map_operator down Switch mapper g fuel h m) = Fine s -> outs (s_tr s) = until down [] (switched (mapped mapper g m h)).
Proof. unfold map_operator. rewrite map_run_is. intros R. apply switch_is in R. rewrite R. unfold switched. now rewrite listened_reaches. Qed.
Lemma exhaust_map_is A E U X M (mapper : M -> U -> M * list (ncall A E)) (g : X -> E) down fuel h m s :
  snd (map_operator down Exhaust mapper g fuel h m) = Fine s -> outs (s_tr s) = until down [] (exhausted (mapped mapper g m h)).
Proof. unfold map_operator. rewrite map_run_is. intros R. apply exhaust_is in R. rewrite R. unfold exhausted. now rewrite listened_reaches. Qed.
Lemma merge_map_is A E U X M (mapper : M -> U -> M * list (ncall A E)) (g : X -> E) down L fuel h m s : 1 <= L -> no_uns (mapped mapper g m h) = true ->
  snd (map_operator down (Concurrent L) mapper g fuel h m) = Fine s -> outs (s_tr s) = until down [] (merged 0 false (s_tr s)).
Proof.
  intros HL Hn. unfold map_operator. rewrite map_run_is. intros R.
  assert (Z : forall h m e, no_uns (mapped mapper g m h) = true -> no_uns (reaches mapper g m e h) = true).
  { clear. induction h as [|a h IH]; intros m e H; auto. cbn [reaches mapped] in *. destruct a as [u|x| | |i c]; cbn [deliver app] in *.
    - destruct (mapper m u) as [m' l]. cbn in *. apply andb_true_iff in H. destruct H as [-> H]. cbn. now apply IH.
    - destruct e; cbn; now apply IH.
    - now apply IH.
    - now apply IH.
    - cbn in *. apply andb_true_iff in H. destruct H as [-> H]. cbn. now apply IH. }
  exact (concurrent_merged down HL _ _ (Z h m true Hn) R).
Qed.

(** *** Inner observables that complete while they are subscribed to. *)
Lemma play_values A E done (vs : list A) : play done (map (@Nxt A E) vs ++ [Cmp]) = (map Nxt vs ++ if done then [Cmp] else [], if done then Over else Gone).
Proof. induction vs as [|v vs IH]; cbn; [now destruct done|]. now rewrite IH. Qed.
Lemma listened_values A E lat n : forall vss : list (list A),
  listened lat n None false (map (fun vs => AArrive (map (@Nxt A E) vs ++ [Cmp])) vss ++ [ACmp]) = map Nxt (concat vss) ++ [Cmp].
Proof.
  intros vss. revert n. induction vss as [|vs vss IH]; intros n; auto. cbn [map app listened concat]. rewrite play_values, app_nil_r, IH, map_app, <- app_assoc. now destruct lat.
Qed.
