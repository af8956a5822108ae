(** Proofs about [HoModel]: switch and exhaust, all histories. *)
From Coq Require Import NArith.
From Verif Require Import Base SubscrModel LifeModel CombModel HoModel HoSpec HoProofs HoConc.
Set Implicit Arguments.

Section One.
Variables A E : Type.
Variable down : list (ncall A E) -> bool.
Variable k : kind.
Hypothesis Hk : match k with Concurrent _ => False | _ => True end.
Notation st := (HoModel.st A E).
Notation cmd := (HoModel.cmd A E).
Notation ev := (HoModel.ev A E).
Notation step := (HoModel.step down k).
Implicit Types (s : st) (K : list cmd).

Arguments num : simpl never.
Arguments pend : simpl never.
Arguments nic : simpl never.

Definition okf1 s (c : cmd) : Prop :=
  match c with
  | KUnsub i | KUnsubFrom i | KAfterNext i | KSubscribed i => i_sub (s_inner s i) = true
  | KInnerCompleted i => i_sub (s_inner s i) = true /\ i_completed (s_inner s i) = true
  | KOnUnsub i => i_sub (s_inner s i) = true /\ i_closed (s_inner s i) = true
  | KAdvance | KOnUnsub2 | KTearEnd => False
  | _ => True
  end.
Definition closing_in K : bool := existsb (fun c => match c with KTell m => is_closing m | _ => false end) K.
Definition noic (c : cmd) : bool := negb (is_ic c).
Definition is_from (c : cmd) : bool := match c with KUnsubFrom _ => true | _ => false end.
(** [KCheck] comes last. *)
Definition nochk (c : cmd) : bool := match c with KCheck => false | _ => true end.
Fixpoint chk K : bool :=
  match K with [] => true | KCheck :: K' => match K' with [] => true | _ => false end | _ :: K' => chk K' end.
Definition ar_end (i : nat) (q p : list ev) : Prop := p = q ++ [TArrive i] \/ exists j, p = q ++ [TArrive i; TEnd j].

Definition good1 (p : list ev) (e : ev) : Prop :=
  alone p e /\ once p e /\ fresh p e /\ (k = Switch -> heard p e) /\ (k = Exhaust -> idle p e).

Record W K s : Prop := {
  w_sub : forall i, i_sub (s_inner s i) = true -> i < s_arrived s;
  w_none : forall i, i_sub (s_inner s i) = false -> s_inner s i = no_inner;
  w_fr : Forall (okf1 s) K;
  w_pend : length (pend K) <= 1;
  w_wait : forall i, In i (pend K) -> S i = s_arrived s /\ s_inner s i = no_inner;
  w_nc : s_nc s = num liv s + nic K + length (pend K);
  w_nu : s_nu s = num ope s + length (pend K);
  w_one : forall i j, ope (s_inner s i) = true -> ope (s_inner s j) = true -> i = j;
  w_cur : forall i, ope (s_inner s i) = true -> s_cur s = Some i \/ In (KUnsubFrom i) K \/ In (KSubscribed i) K;
  w_cursub : forall i, s_cur s = Some i -> i_sub (s_inner s i) = true;
  w_comp : forall i, i_completed (s_inner s i) = true -> i_closed (s_inner s i) = true \/ before i K = true;
  w_ichead : forallb noic (tl K) = true;
  w_icopen : forall i, In (KInnerCompleted i) K -> i_closed (s_inner s i) = false;
  w_create : forall i j, In i (pend K) -> ope (s_inner s j) = true -> k = Switch /\ exists K', K = KUnsubFrom j :: K';
  w_quiet : forall m, In (KTell m) K -> pend K <> [] -> shut s = true;
  w_check : chk K = true;
  w_from : forall i, In (KUnsubFrom i) K -> s_busy s = [];
  w_busy : forall i, In i (s_busy s) -> In (KFree i) K;
  w_latest : k = Switch -> forall i, ope (s_inner s i) = true -> pend K = [] -> S i = s_arrived s;
  w_down : is_closed (s_down s) = true -> shut s = true \/ closing_in K = true;
  w_uperr : is_errored (s_up s) = true -> shut s = true \/ closing_in K = true;
  w_upuns : is_unsubscribed (s_up s) = true -> is_completed (s_up s) = true;
  w_torn : s_torn s = true -> shut s = true \/ closing_in K = true;
  w_tear : In KTear K -> shut s = true \/ closing_in K = true;
  w_nq : s_queue s = [];
  w_mir : mirror down s;
  w_arr : forall i, In i (pend K) -> exists q, ar_end i q (s_tr s) /\
            (k = Exhaust \/ existsb is_from K = true -> s_tr s = q ++ [TArrive i]);
  w_froms : pend K <> [] -> existsb is_from (tl K) = false;
  w_tr : always good1 (s_tr s)
}.

Lemma closing_app : forall K K', closing_in (K ++ K') = closing_in K || closing_in K'. Proof. intros. apply existsb_app. Qed.
Lemma noic_tl : forall K, forallb noic K = true -> forallb noic (tl K) = true.
Proof. intros [|c K]; cbn; auto. intros H. apply andb_true_iff in H. tauto. Qed.
Lemma noic_nic : forall K, forallb noic K = true -> nic K = 0.
Proof. induction K as [|c K IH]; cbn; intros H; auto. apply andb_true_iff in H. destruct H as [H1 H2]. rewrite nic_cons, IH by auto. destruct c; try discriminate; auto. Qed.
Lemma noic_in : forall K i, forallb noic K = true -> ~ In (KInnerCompleted i) K.
Proof. intros K i H Q. rewrite forallb_forall in H. apply H in Q. discriminate. Qed.
Lemma from_in : forall K i, In (KUnsubFrom i) K -> existsb is_from K = true.
Proof. intros K i H. apply existsb_exists. exists (KUnsubFrom i). auto. Qed.
Lemma from_tl : forall K, existsb is_from K = false -> existsb is_from (tl K) = false.
Proof. intros [|c K]; cbn; auto. intros H. apply orb_false_iff in H. tauto. Qed.

Lemma chk_app : forall K1 K, forallb nochk K1 = true -> chk (K1 ++ K) = chk K.
Proof. induction K1 as [|c K1 IH]; cbn [app forallb]; intros K H; auto. apply andb_true_iff in H. destruct H as [H1 H2]. destruct c; try discriminate; cbn [chk]; auto. Qed.
Lemma chk_tl : forall c K, chk (c :: K) = true -> chk K = true.
Proof. intros c K H. destruct c; auto. cbn in H. destruct K; auto. discriminate. Qed.
Lemma closing_tell : forall K, closing_in K = true -> exists m, In (KTell m) K.
Proof. intros K H. apply existsb_exists in H. destruct H as (c & H1 & H2). destruct c; try discriminate. eauto. Qed.

Lemma grows_fr1 : forall s s' K, grows s s' -> Forall (okf1 s) K -> Forall (okf1 s') K.
Proof.
  intros s s' K G. apply Forall_impl. intros c. destruct c; cbn; auto; try (apply G).
  - intros [H1 H2]. split; now apply G.
  - intros [H1 H2]. split; now apply G.
Qed.
Definition plain (c : cmd) : bool := match c with KCreate _ _ | KInnerCompleted _ | KFree _ | KTell _ => false | _ => true end.

(** Nothing on the stack but the top command may be [KInnerCompleted]. *)
Lemma W_tl : forall c K s, W (c :: K) s -> forallb noic K = true /\ nic K = 0 /\ Forall (okf1 s) K /\ okf1 s c.
Proof. intros c K s H. pose proof (w_ichead H) as Q. cbn in Q. pose proof (w_fr H) as F. inversion F; subst. auto using noic_nic. Qed.

Lemma W_stack : forall c K K1 s, W (c :: K) s -> plain c = true ->
  (forall j, c = KUnsub j \/ c = KUnsubFrom j -> i_closed (s_inner s j) = true) ->
  (forall j, c = KSubscribed j -> i_closed (s_inner s j) = true \/ s_cur s = Some j) ->
  forallb (@silent A E) K1 = true -> forallb noic K1 = true -> pend K1 = [] -> Forall (okf1 s) K1 ->
  (forall j, In (KUnsubFrom j) K1 -> False) ->
  (In KTear K1 -> closing_in K1 = true) ->
  (forall m, In (KTell m) K1 -> pend K <> [] -> shut s = true) -> forallb nochk K1 = true ->
  W (K1 ++ K) s.
Proof.
  intros c K K1 s H Hp Hc Hsb Hsil Hni Hpe Hok Hfr Htear Hq Hck. destruct (W_tl H) as (T1 & T2 & T3 & T4).
  assert (P1 : pend (c :: K) = pend K) by (rewrite pend_cons; destruct c; try discriminate; auto).
  assert (P2 : nic (c :: K) = nic K) by (rewrite nic_cons; destruct c; try discriminate; auto).
  assert (P3 : nic K1 = 0) by now apply noic_nic.
  assert (P4 : closing_in (c :: K) = closing_in K) by (destruct c; try discriminate; auto).
  assert (P5 : existsb is_from K1 = false).
  { destruct (existsb is_from K1) eqn:Q; auto. apply existsb_exists in Q. destruct Q as (x & Q1 & Q2). destruct x; try discriminate. destruct (Hfr i Q1). }
  assert (P6 : pend K <> [] -> existsb is_from K = false).
  { intros Q. pose proof (w_froms H) as Z. rewrite P1 in Z. now apply Z. }
  assert (Cl : forall j, c = KUnsubFrom j -> ope (s_inner s j) = false) by (intros j Q; unfold ope; rewrite (Hc j); [apply andb_false_r|auto]).
  assert (Y : shut s = true \/ closing_in K = true -> shut s = true \/ closing_in (K1 ++ K) = true) by (rewrite closing_app; intros [Z|Z]; rewrite ?Z, ?orb_true_r; auto).
  destruct H. rewrite P1, P2, P4 in *. constructor; rewrite ?pend_app, ?nic_app, ?Hpe, ?P3; cbn [app Nat.add]; auto.
  - apply Forall_app. auto.
  - intros i Hi. destruct (w_cur0 i Hi) as [Q|[[Q|Q]|[Q|Q]]]; auto.
    + subst c. rewrite Cl in Hi; auto. discriminate.
    + right. left. apply in_or_app. auto.
    + subst c. destruct (Hsb i eq_refl) as [Z|Z]; auto. unfold ope in Hi. rewrite Z, andb_false_r in Hi. discriminate.
    + right. right. apply in_or_app. auto.
  - intros j Hj. destruct (w_comp0 j Hj) as [Z|Z]; auto. apply before_tl in Z. destruct Z as [Z|Z]; [left; auto|].
    right. apply before_app; auto using silent_nocall.
  - destruct K1; cbn in *; [now apply noic_tl|]. apply andb_true_iff in Hni. rewrite forallb_app. destruct Hni as [_ ->]. auto.
  - intros i Hi. apply in_app_or in Hi. destruct Hi as [Hi|Hi]; eapply noic_in in Hi; eauto; contradiction.
  - intros i j Hi Hj. destruct (w_create0 i j Hi Hj) as [_ [K' Q]]. injection Q as Q _. rewrite Cl in Hj; auto. discriminate.
  - intros m Q1 Q2. apply in_app_or in Q1. destruct Q1 as [Q1|Q1]; [eauto|]. apply (w_quiet0 m); auto. now right.
  - rewrite chk_app by auto. eapply chk_tl. eauto.
  - intros i Hi. apply in_app_or in Hi. destruct Hi as [Hi|Hi]; [destruct (Hfr _ Hi)|]. apply (w_from0 i). now right.
  - intros i Hi. destruct (w_busy0 i Hi) as [Q|Q]; [subst c; discriminate|]. apply in_or_app. auto.
  - intros Q. apply in_app_or in Q. destruct Q as [Q|Q]; [rewrite closing_app, Htear; auto|]. apply Y, w_tear0. now right.
  - intros i Hi. destruct (w_arr0 i Hi) as (q & Q1 & Q2). exists q. split; auto. intros [Z|Z]; auto. rewrite existsb_app, P5, P6 in Z; [discriminate|].
    intros Q. rewrite Q in Hi. destruct Hi.
  - intros Q. destruct K1 as [|x K1]; cbn [app tl]; [now apply from_tl, P6|]. cbn in P5. apply orb_false_iff in P5. rewrite existsb_app, P6; auto. now rewrite (proj2 P5).
Qed.

Lemma W_pop : forall c K s, W (c :: K) s -> plain c = true ->
  (forall j, c = KUnsub j \/ c = KUnsubFrom j -> i_closed (s_inner s j) = true) ->
  (forall j, c = KSubscribed j -> i_closed (s_inner s j) = true \/ s_cur s = Some j) -> W K s.
Proof. intros c K s H H1 H2 H3. apply (@W_stack c K [] s); auto. Qed.

Lemma W_down : forall K s d, W K s -> (is_closed d = true -> shut s = true \/ closing_in K = true) -> W K (with_down s d).
Proof. intros K s d [] Hd. constructor; auto. revert w_mir0. apply mirror_same; auto. Qed.
Lemma W_torn : forall K s v, W K s -> shut s = true \/ closing_in K = true -> W K (with_torn s v).
Proof. intros K s v [] H. constructor; auto. revert w_mir0. apply mirror_same; auto. Qed.
Lemma W_log : forall K s e, neutral e = true -> pend K = [] -> (k = Switch -> heard (s_tr s) e) -> W K s -> W K (log s e).
Proof.
  intros K s e He Hp Hh []. constructor; auto.
  - now apply (@mirror_log _ _ _ 0).
  - rewrite Hp. intros i [].
  - apply always_snoc; auto. repeat split; auto; destruct e; try discriminate; intros; exact I.
Qed.

Lemma do_unsub_W : forall c i K s s' K1, W (c :: K) s -> c = KUnsub i \/ c = KUnsubFrom i ->
  do_unsub i s = Some (s', K1) -> W (K1 ++ K) s'.
Proof.
  intros c i K s s' K1 H Hc R. destruct (W_tl H) as (T1 & T2 & T3 & T4).
  assert (Hpl : plain c = true) by (destruct Hc; subst; auto).
  assert (Hsub : i_sub (s_inner s i) = true) by (destruct Hc; subst; auto).
  unfold do_unsub in R. destruct (i_closed (s_inner s i)) eqn:Ec.
  { injection R as <- <-. apply (@W_pop c); auto; [intros j [Q|Q]; destruct Hc; subst; congruence|intros j Q; destruct Hc; subst; discriminate]. }
  set (v := s_inner s i) in *. set (fire := negb (is_unsubscribed (s_down s)) && i_ou v) in *.
  destruct (minus_one (s_nu s)) as [nu|] eqn:Enu; [|discriminate].
  destruct (if i_completed v then Some (s_nc s) else minus_one (s_nc s)) as [nc|] eqn:Enc; [|discriminate].
  injection R as <- <-.
  assert (Hope : ope v = true) by (unfold ope; now rewrite Hsub, Ec).
  assert (Hlt : i < s_arrived s) by (apply (w_sub H); auto).
  assert (Hcr : pend (c :: K) <> [] -> k = Switch /\ c = KUnsubFrom i).
  { intros Q. destruct (pend (c :: K)) as [|x l] eqn:Ep; [congruence|]. destruct (w_create H x i) as [Y [K' Z]]; auto; [rewrite Ep; now left|]. now injection Z. }
  assert (P1 : pend (c :: K) = pend K) by (rewrite pend_cons; destruct c; try discriminate; auto).
  assert (P2 : nic (c :: K) = 0) by (rewrite nic_cons, T2; destruct c; try discriminate; auto).
  assert (P4 : closing_in (c :: K) = closing_in K) by (destruct c; try discriminate; auto).
  set (s' := with_counts _ nc nu).
  assert (Hn : forall f, num f s' + (if f v then 1 else 0) = num f s + (if f (set_closed fire v) then 1 else 0)) by (intros f; apply (@cnt_inner f (s_arrived s) (s_inner s) i (set_closed fire v) Hlt)).
  assert (Hno : forall j, ope (s_inner s' j) = false).
  { intros j. unfold s'. cbn. destruct (j =? i) eqn:Ej; [unfold ope; cbn; apply andb_false_r|]. destruct (ope (s_inner s j)) eqn:Eo; auto.
    apply Nat.eqb_neq in Ej. destruct Ej. apply (w_one H); auto. }
  assert (Hopn : num ope s' + 1 = num ope s).
  { specialize (Hn ope). assert (Q2 : ope (set_closed fire v) = false) by (unfold ope; cbn; apply andb_false_r). rewrite Hope, Q2 in Hn. lia. }
  assert (Hlv : num liv s' + (if i_completed v then 0 else 1) = num liv s).
  { specialize (Hn liv). assert (Q1 : liv v = negb (i_completed v)) by (unfold liv; rewrite Hsub, Ec; now destruct (i_completed v)).
    assert (Q2 : liv (set_closed fire v) = false) by (unfold liv; cbn; apply andb_false_r). rewrite Q1, Q2 in Hn. destruct (i_completed v); cbn in *; lia. }
  assert (G : grows s s').
  { intros j. unfold s'. cbn. destruct (j =? i) eqn:Ej; [|auto]. apply Nat.eqb_eq in Ej. subst j. fold v. cbn. auto. }
  assert (Hshut : is_closed (s_down s') = true -> shut s = true \/ closing_in K = true).
  { rewrite <- P4. unfold s'. cbn. destruct (can_downstream_unsubscribe s) eqn:Ecan; [|apply (w_down H)].
    intros _. unfold can_downstream_unsubscribe in Ecan.
    destruct (s_nu s) eqn:En; [discriminate|]. replace (S n =? 0) with false in Ecan by reflexivity. rewrite andb_false_r in Ecan. cbn in Ecan.
    apply orb_true_iff in Ecan. destruct Ecan as [Ecan|Ecan]; [now apply (w_uperr H)|now apply (w_down H)]. }
  set (K1 := if fire then [KOnUnsub i] else []).
  assert (C1 : pend (K1 ++ K) = pend K) by (rewrite pend_app; unfold K1; now destruct fire).
  assert (C2 : nic (K1 ++ K) = 0) by (rewrite nic_app, T2; unfold K1; now destruct fire).
  assert (C4 : closing_in (K1 ++ K) = closing_in K) by (unfold K1; now destruct fire).
  assert (C5 : existsb is_from (K1 ++ K) = existsb is_from K) by (unfold K1; now destruct fire).
  assert (C6 : pend K <> [] -> existsb is_from K = false).
  { intros Q. pose proof (w_froms H) as Z. rewrite P1 in Z. now apply Z. }
  destruct H. rewrite P1, P2, P4 in *. constructor; rewrite ?C1, ?C2, ?C4, ?C5; auto.
  - intros j. unfold s'. cbn. destruct (j =? i) eqn:Ej; auto. intros _. apply Nat.eqb_eq in Ej. now subst j.
  - intros j. unfold s'. cbn. destruct (j =? i) eqn:Ej; auto. cbn. congruence.
  - apply Forall_app. split; [|now apply (grows_fr1 G)]. unfold K1. destruct fire; constructor; auto. unfold s'. cbn. rewrite Nat.eqb_refl. cbn. auto.
  - intros j Hj. destruct (w_wait0 j Hj) as [Q1 Q2]. split; auto. unfold s'. cbn. destruct (j =? i) eqn:Ej; auto.
    apply Nat.eqb_eq in Ej. subst j. unfold v in *. rewrite Q2 in Hsub. discriminate.
  - change (s_nc s') with nc. destruct (i_completed v); [injection Enc as <-; lia|]. destruct (s_nc s); [discriminate|]. injection Enc as <-. lia.
  - change (s_nu s') with nu. destruct (s_nu s); [discriminate|]. injection Enu as <-. lia.
  - intros a b Ha. rewrite Hno in Ha. discriminate.
  - intros a Ha. rewrite Hno in Ha. discriminate.
  - intros a Ha. apply G. auto.
  - intros j. unfold s'. cbn [s_inner with_counts with_down log with_inner]. destruct (j =? i) eqn:Ej; [cbn; auto|]. intros Hj. destruct (w_comp0 j Hj) as [Z|Z]; auto.
    right. apply before_tl in Z. destruct Z as [Z|Z]; [destruct Hc; subst c; try discriminate; injection Z as ->; rewrite Nat.eqb_refl in Ej; discriminate|].
    apply before_app; auto. unfold K1. now destruct fire.
  - unfold K1. destruct fire; cbn [app tl]; auto using noic_tl.
  - intros j Hj. apply in_app_or in Hj. destruct Hj as [Hj|Hj]; [unfold K1 in Hj; destruct fire; [|destruct Hj]; destruct Hj as [Hj|[]]; discriminate|].
    eapply noic_in in Hj; eauto. contradiction.
  - intros a j _ Hj. rewrite Hno in Hj. discriminate.
  - intros m Q. apply (w_quiet0 m). apply in_app_or in Q. destruct Q as [Q|Q]; [unfold K1 in Q; destruct fire; [|destruct Q]; destruct Q as [Q|[]]; discriminate|now right].
  - rewrite chk_app by (unfold K1; now destruct fire). eapply chk_tl. eauto.
  - intros j Hj. apply in_app_or in Hj. destruct Hj as [Hj|Hj]; [unfold K1 in Hj; destruct fire; [|destruct Hj]; destruct Hj as [Hj|[]]; discriminate|].
    apply (w_from0 j). now right.
  - intros j Hj. destruct (w_busy0 j Hj) as [Q|Q]; [destruct Hc; subst; discriminate|]. apply in_or_app. auto.
  - intros _ j Hj. rewrite Hno in Hj. discriminate.
  - intros Q. apply w_tear0. right. apply in_app_or in Q. destruct Q as [Q|Q]; auto. unfold K1 in Q. destruct fire; [|destruct Q]. destruct Q as [Q|[]]. discriminate.
  - destruct w_mir0. constructor; cbn.
    + intros j. autorewrite with snoc. rewrite orb_false_r. destruct (j =? i) eqn:Ej; auto. apply Nat.eqb_eq in Ej. subst j. apply (m_sub i).
    + intros j. autorewrite with snoc. rewrite orb_false_r. destruct (j =? i) eqn:Ej; auto. apply Nat.eqb_eq in Ej. subst j. apply (m_cmp i).
    + intros j. autorewrite with snoc. rewrite (Nat.eqb_sym i j). destruct (j =? i) eqn:Ej; cbn; [now rewrite orb_true_r|rewrite orb_false_r; auto].
    + autorewrite with snoc. lia.
    + autorewrite with snoc. now rewrite orb_false_r.
    + autorewrite with snoc. now rewrite app_nil_r.
    + rewrite m_shut. split; apply open_same; autorewrite with snoc; now rewrite app_nil_r.
  - intros j Hj. destruct (w_arr0 j Hj) as (q & Q1 & Q2). exists q.
    assert (Z : pend K <> []) by (intros Q; rewrite Q in Hj; destruct Hj).
    specialize (Hcr Z). destruct Hcr as [Hsw ->]. split.
    + right. exists i. unfold s'. cbn. rewrite Q2 by (right; reflexivity). now rewrite <- app_assoc.
    + rewrite C6 by auto. intros [Q|Q]; [congruence|discriminate].
  - intros Q. unfold K1. destruct fire; cbn [app tl]; auto using from_tl.
  - apply always_snoc; auto. repeat split; intros; exact I.
Qed.

Lemma W_queue : forall K s, W K s -> W K (with_queue s []).
Proof. intros K s []. constructor; auto. revert w_mir0. apply mirror_same; auto. Qed.
Lemma W_up : forall K s u, W K s -> is_completed u = is_completed (s_up s) -> is_unsubscribed u = is_unsubscribed (s_up s) ->
  (is_errored u = true -> shut s = true \/ closing_in K = true) -> W K (with_up s u).
Proof. intros K s u [] H1 H2 H3. constructor; auto; cbn; rewrite ?H1, ?H2; auto. revert w_mir0. apply mirror_same; auto. Qed.
Lemma W_cur : forall K s i, W K s -> ope (s_inner s i) = true -> W K (with_cur s (Some i)).
Proof.
  intros K s i [] Ho. constructor; auto; cbn.
  - intros j Hj. left. f_equal. auto.
  - intros j Hj. injection Hj as <-. unfold ope in Ho. apply andb_true_iff in Ho. tauto.
  - revert w_mir0. apply mirror_same; auto.
Qed.

Lemma tell_W : forall m K s s' K1, W (KTell m :: K) s -> step (KTell m) s = Some (s', K1) -> W (K1 ++ K) s'.
Proof.
  intros m K s s' K1 H R. cbn [HoModel.step] in R. destruct (W_tl H) as (T1 & T2 & T3 & T4).
  assert (P1 : pend (KTell m :: K) = pend K) by reflexivity.
  assert (P2 : nic (KTell m :: K) = nic K) by (rewrite nic_cons; auto).
  assert (P6 : pend K <> [] -> existsb is_from K = false) by (intros Q; now apply (w_froms H)).
  destruct H. rewrite P1, P2 in *.
  assert (Cu : forall i, ope (s_inner s i) = true -> s_cur s = Some i \/ In (KUnsubFrom i) K \/ In (KSubscribed i) K).
  { intros i Hi. destruct (w_cur0 i Hi) as [Z|[[Z|Z]|[Z|Z]]]; auto; discriminate. }
  assert (Cr : forall i j, In i (pend K) -> ope (s_inner s j) = true -> False).
  { intros i j Hi Hj. destruct (w_create0 i j Hi Hj) as [_ [K' Z]]. discriminate. }
  assert (Bu : forall i, In i (s_busy s) -> In (KFree i) K).
  { intros i Hi. destruct (w_busy0 i Hi) as [Z|Z]; auto. discriminate. }
  destruct (t_shut (s_told s)) eqn:Es.
  - injection R as <- <-. cbn [app]. constructor; auto using noic_tl.
    + intros i Hi. eapply noic_in in Hi; eauto. contradiction.
    + intros i j Hi Hj. destruct (Cr i j Hi Hj).
    + intros i Hi. apply (w_from0 i). now right.
    + intros Q. now apply from_tl, P6.
  - set (s1 := log (with_told s (tell down m (s_told s))) (TOut m)) in *.
    assert (Es' : s' = s1 /\ K1 = []) by (destruct k; [contradiction| |]; inversion R; auto).
    destruct Es' as [-> ->]. cbn [app].
    assert (Hpe : pend K = []).
    { destruct (pend K) eqn:Q; auto. unfold shut in w_quiet0. rewrite (w_quiet0 m) in Es; [discriminate|now left|discriminate]. }
    assert (Hs : shut s1 = is_closing m || down (outs (s_tr s) ++ [m])).
    { unfold shut, s1. cbn. rewrite Es, (m_out w_mir0). reflexivity. }
    assert (Y : shut s = true \/ closing_in (KTell m :: K) = true -> shut s1 = true \/ closing_in K = true).
    { intros [Z|Z]; [unfold shut in Z; congruence|]. cbn in Z. apply orb_true_iff in Z. destruct Z as [Z|Z]; auto. rewrite Hs, Z. auto. }
    constructor; auto using noic_tl.
    + intros i Hi. eapply noic_in in Hi; eauto. contradiction.
    + intros i j Hi Hj. destruct (Cr i j Hi Hj).
    + intros i Hi. apply (w_from0 i). now right.
    + intros Q. apply Y, w_tear0. now right.
    + destruct w_mir0. constructor; cbn; intros; autorewrite with snoc; rewrite ?orb_false_r, ?Nat.add_0_r, ?m_out; auto.
      rewrite open_out, <- m_shut, Es, <- m_out. cbn. rewrite orb_false_iff. tauto.
    + rewrite Hpe. intros i [].
    + rewrite Hpe. congruence.
    + apply always_snoc; auto. repeat split; intros; exact I.
Qed.

Lemma noic_calls : forall i (l : list (ncall A E)), forallb noic (map (KCall i) l ++ [KSubscribed i]) = true.
Proof. intros i l. rewrite forallb_app. cbn. rewrite andb_true_r. induction l; cbn; auto. Qed.
Lemma nochk_calls : forall i (l : list (ncall A E)), forallb nochk (map (KCall i) l ++ [KSubscribed i]) = true.
Proof. intros i l. rewrite forallb_app. cbn. rewrite andb_true_r. induction l; cbn; auto. Qed.
Lemma in_calls : forall i (l : list (ncall A E)) c, In c (map (KCall i) l ++ [KSubscribed i]) -> (exists m, c = KCall i m) \/ c = KSubscribed i.
Proof. intros i l c H. apply in_app_or in H. destruct H as [H|[H|[]]]; auto. apply in_map_iff in H. destruct H as (m & H & _). eauto. Qed.

Lemma create_W : forall i l K s s' K1, W (KCreate i l :: K) s -> step (KCreate i l) s = Some (s', K1) -> W (K1 ++ K) s'.
Proof.
  intros i l K s s' K1 H R. cbn [HoModel.step] in R. destruct (W_tl H) as (T1 & T2 & T3 & T4).
  assert (Hi0 : In i (pend (KCreate i l :: K))) by (rewrite pend_cons; cbn; auto).
  assert (Hpe : pend K = []).
  { pose proof (w_pend H) as Q. rewrite pend_cons in Q. cbn in Q. destruct (pend K); auto. cbn in Q. lia. }
  assert (Hno : forall j, ope (s_inner s j) = false).
  { intros j. destruct (ope (s_inner s j)) eqn:Q; auto. destruct (w_create H i j Hi0 Q) as [_ [K' Z]]. discriminate. }
  destruct (w_wait H i Hi0) as [Hi Hni].
  assert (E1 : exists v, i_sub v = true /\ i_closed v = false /\ i_completed v = false /\ s' = log (with_inner s i v) (TSub i) /\ K1 = map (KCall i) l ++ [KSubscribed i]).
  { destruct k; [contradiction| |]; injection R as <- <-; eexists; repeat split; reflexivity. }
  destruct E1 as (v & V1 & V2 & V3 & -> & ->). clear R.
  set (s' := log _ _). set (K1 := map _ _ ++ _).
  assert (C1 : pend K1 = []).
  { unfold K1. rewrite pend_app. assert (Q : pend (map (KCall i) l) = []) by (clear; induction l; cbn [map]; auto). rewrite Q. reflexivity. }
  assert (C2 : nic K1 = 0) by (apply noic_nic, noic_calls).
  assert (Hn : forall f, f no_inner = false -> num f s' = num f s + (if f v then 1 else 0)).
  { intros f Hf. pose proof (@cnt_inner f (s_arrived s) (s_inner s) i v ltac:(lia)) as Q. rewrite Hni, Hf in Q. unfold num, s'. cbn [s_inner s_arrived log with_inner]. lia. }
  assert (G : grows s s').
  { intros j. unfold s'. cbn. destruct (j =? i) eqn:Ej; [|auto]. apply Nat.eqb_eq in Ej. subst j. rewrite Hni. cbn. repeat split; congruence. }
  assert (Hino : forall j, s_inner s' j = if j =? i then v else s_inner s j) by reflexivity.
  destruct (w_arr H i Hi0) as (q & Q1 & Q2).
  destruct H. rewrite pend_cons, nic_cons, Hpe in *. cbn [pend1 is_ic app Nat.add length] in *.
  assert (CC : closing_in (KCreate i l :: K) = true -> closing_in (K1 ++ K) = true) by (intros Z; rewrite closing_app; cbn in Z; change (closing_in K = true) in Z; rewrite Z; apply orb_true_r).
  constructor; rewrite ?pend_app, ?nic_app, ?C1, ?C2, ?Hpe; cbn [app Nat.add length]; auto; try (intros; contradiction); try congruence.
  - intros j. rewrite Hino. destruct (j =? i) eqn:Ej; auto. apply Nat.eqb_eq in Ej. subst j. change (s_arrived s') with (s_arrived s). intros _. lia.
  - intros j. rewrite Hino. destruct (j =? i); auto. congruence.
  - apply Forall_app. split; [|apply (grows_fr1 G); auto].
    apply Forall_forall. intros c Hc. apply in_calls in Hc. destruct Hc as [[m ->]| ->]; cbn; auto. now rewrite Nat.eqb_refl.
  - rewrite Hn by reflexivity. unfold liv at 2. rewrite V1, V2, V3. cbn. change (s_nc s') with (s_nc s). lia.
  - rewrite Hn by reflexivity. unfold ope at 2. rewrite V1, V2. cbn. change (s_nu s') with (s_nu s). lia.
  - intros a b. rewrite !Hino. destruct (a =? i) eqn:Ea; [|rewrite Hno; discriminate]. destruct (b =? i) eqn:Eb; [|rewrite Hno; discriminate].
    apply Nat.eqb_eq in Ea, Eb. congruence.
  - intros a. rewrite Hino. destruct (a =? i) eqn:Ea; [|rewrite Hno; discriminate]. apply Nat.eqb_eq in Ea. subst a. intros _. right. right.
    apply in_or_app. left. apply in_or_app. right. now left.
  - intros a Ha. apply G. auto.
  - intros j. rewrite Hino. destruct (j =? i) eqn:Ej; [congruence|]. intros Hj. destruct (w_comp0 j Hj) as [Z|Z]; auto. right. apply before_app; auto.
    apply forallb_forall. intros c Hc. apply in_calls in Hc. destruct Hc as [[m ->]| ->]; cbn; auto. rewrite Nat.eqb_sym, Ej. auto.
  - pose proof (noic_calls i l) as Q. fold K1 in Q. destruct K1; cbn [app tl] in *; [now apply noic_tl|].
    cbn in Q. apply andb_true_iff in Q. rewrite forallb_app. now rewrite (proj2 Q).
  - intros j Hj. exfalso. apply in_app_or in Hj. destruct Hj as [Hj|Hj]; [eapply noic_in in Hj; eauto; apply noic_calls|eapply noic_in in Hj; eauto].
  - rewrite chk_app; auto. apply nochk_calls.
  - intros j Hj. apply (w_from0 j). apply in_app_or in Hj. destruct Hj as [Hj|Hj]; [|now right]. apply in_calls in Hj. destruct Hj as [[m Hj]|Hj]; discriminate.
  - intros j Hj. destruct (w_busy0 j Hj) as [Z|Z]; [discriminate|]. apply in_or_app. auto.
  - intros Hsw j. rewrite Hino. destruct (j =? i) eqn:Ej; [|rewrite Hno; discriminate]. apply Nat.eqb_eq in Ej. now subst j.
  - intros Z. destruct (w_down0 Z); auto.
  - intros Z. destruct (w_uperr0 Z); auto.
  - intros Z. destruct (w_torn0 Z); auto.
  - intros Z. apply in_app_or in Z. destruct Z as [Z|Z]; [apply in_calls in Z; destruct Z as [[m Z]|Z]; discriminate|]. destruct (w_tear0 (or_intror Z)); auto.
  - destruct w_mir0. constructor; intros; try (change (s_arrived s') with (s_arrived s)); cbn [s' s_tr log s_inner with_inner s_up s_told]; autorewrite with snoc; rewrite ?orb_false_r, ?Nat.add_0_r, ?app_nil_r; auto.
    + rewrite (Nat.eqb_sym i i0). destruct (i0 =? i) eqn:Ei; [|rewrite orb_false_r; auto]. now rewrite V1, orb_true_r.
    + destruct (i0 =? i) eqn:Ei; auto. apply Nat.eqb_eq in Ei. subst i0. rewrite <- m_cmp, Hni. auto.
    + destruct (i0 =? i) eqn:Ei; auto. apply Nat.eqb_eq in Ei. subst i0. rewrite <- m_end, Hni. auto.
    + unfold s'. cbn. rewrite m_shut. split; apply open_same; autorewrite with snoc; now rewrite app_nil_r.
  - apply always_snoc; auto.
    assert (R0 : running (s_tr s) = 0).
    { rewrite (mirror_running w_mir0). apply cnt_none. intros j _. unfold liv. specialize (Hno j). unfold ope in Hno.
      destruct (i_sub (s_inner s j)), (i_closed (s_inner s j)), (i_completed (s_inner s j)); auto; discriminate. }
    split; [|split; [|split; [|split]]]; cbn; auto.
    + destruct w_mir0. rewrite <- m_sub, Hni. split; auto. lia.
    + exists q. exact Q1.
    + intros Hex. exists q. split; auto. rewrite Q2 in R0 by auto.
      change (cnt (fun j => active j (q ++ [TArrive i])) (arrivals (q ++ [TArrive i])) = 0) in R0. change (cnt (fun j => active j q) (arrivals q) = 0).
      replace (arrivals (q ++ [TArrive i])) with (S (arrivals q)) in R0 by (rewrite arrivals_snoc; lia). rewrite cnt_S in R0.
      rewrite (@cnt_ext (fun j => active j q) (fun j => active j (q ++ [TArrive i]))); [lia|]. intros j _. unfold active. autorewrite with snoc. now rewrite !orb_false_r.
Qed.

(** An inner observable completes. *)
Lemma complete_W : forall i K s, W (KCall i Cmp :: K) s -> ope (s_inner s i) = true ->
  W (KInnerCompleted i :: KUnsub i :: K) (with_inner (log s (TIn i Cmp)) i (set_completed (s_inner s i))).
Proof.
  intros i K s H Ho. destruct (W_tl H) as (T1 & T2 & T3 & T4).
  assert (Hpe : pend K = []).
  { change (pend (KCall i Cmp :: K) = []). destruct (pend (KCall i Cmp :: K)) as [|x l] eqn:Q; auto.
    destruct (w_create H x i) as [_ [K' Z]]; [rewrite Q; now left|auto|discriminate]. }
  unfold ope in Ho. apply andb_true_iff in Ho. destruct Ho as [Hsub Hcl]. apply negb_true_iff in Hcl.
  assert (Hlt : i < s_arrived s) by now apply (w_sub H).
  assert (Hco : i_completed (s_inner s i) = false).
  { destruct (i_completed (s_inner s i)) eqn:Q; auto. destruct (w_comp H i Q) as [Z|Z]; [congruence|]. cbn in Z. rewrite Nat.eqb_refl in Z. discriminate. }
  set (s' := with_inner _ _ _).
  assert (Hino : forall j, s_inner s' j = if j =? i then set_completed (s_inner s i) else s_inner s j) by reflexivity.
  assert (Hn : forall f, num f s' + (if f (s_inner s i) then 1 else 0) = num f s + (if f (set_completed (s_inner s i)) then 1 else 0)) by (intros f; apply (@cnt_inner f (s_arrived s) (s_inner s) i _ Hlt)).
  assert (Hop : forall j, ope (s_inner s' j) = ope (s_inner s j)).
  { intros j. rewrite Hino. destruct (j =? i) eqn:Ej; auto. apply Nat.eqb_eq in Ej. now subst j. }
  assert (G : grows s s').
  { intros j. rewrite Hino. destruct (j =? i) eqn:Ej; auto. apply Nat.eqb_eq in Ej. subst j. cbn. auto. }
  destruct H. rewrite pend_cons, nic_cons in *. cbn [pend1 is_ic app Nat.add] in *.
  constructor; rewrite ?pend_cons, ?nic_cons, ?Hpe, ?T2; cbn [pend1 is_ic app Nat.add length]; auto; try (intros; contradiction); try congruence.
  - intros j. rewrite Hino. destruct (j =? i) eqn:Ej; auto. intros _. apply Nat.eqb_eq in Ej. now subst j.
  - intros j. rewrite Hino. destruct (j =? i) eqn:Ej; auto. cbn. congruence.
  - constructor; [|constructor; [|apply (grows_fr1 G); auto]]; cbn; rewrite Nat.eqb_refl; cbn; auto.
  - specialize (Hn liv). unfold liv in Hn at 2 4. cbn in Hn. rewrite Hsub, Hcl, Hco in Hn. cbn in Hn. change (s_nc s') with (s_nc s). rewrite Hpe in *. cbn [length] in *. lia.
  - specialize (Hn ope). change (ope (set_completed (s_inner s i))) with (ope (s_inner s i)) in Hn. change (s_nu s') with (s_nu s). rewrite Hpe in *. cbn [length] in *. lia.
  - intros a b. rewrite !Hop. auto.
  - intros j. rewrite Hop. intros Hj. destruct (w_cur0 j Hj) as [Z|[[Z|Z]|[Z|Z]]]; try discriminate; auto; right; [left|right]; right; right; auto.
  - intros a Ha. apply G. auto.
  - intros j. rewrite Hino. destruct (j =? i) eqn:Ej; intros Hj.
    + right. cbn. rewrite Nat.eqb_sym, Ej. auto.
    + destruct (w_comp0 j Hj) as [Z|Z]; auto. right. assert (Ej' : (i =? j) = false) by (now rewrite Nat.eqb_sym). cbn in *. rewrite Ej' in *. auto.
  - intros j Hj. rewrite Hino. destruct Hj as [Hj|[Hj|Hj]]; [|discriminate|eapply noic_in in Hj; eauto; contradiction].
    injection Hj as <-. now rewrite Nat.eqb_refl.
  - intros j Hj. apply (w_from0 j). destruct Hj as [Hj|[Hj|Hj]]; try discriminate. now right.
  - intros j Hj. destruct (w_busy0 j Hj) as [Z|Z]; [discriminate|]. right. right. auto.
  - intros Hsw j. rewrite Hop. intros Hj _. apply w_latest0; auto.
  - intros Z. apply w_tear0. destruct Z as [Z|[Z|Z]]; try discriminate. now right.
  - destruct w_mir0. constructor; intros; cbn [s' s_tr log s_inner with_inner s_up s_told s_arrived]; autorewrite with snoc; rewrite ?orb_false_r, ?Nat.add_0_r, ?app_nil_r; auto.
    + destruct (i0 =? i) eqn:Ei; auto. apply Nat.eqb_eq in Ei. subst i0. cbn. auto.
    + rewrite (Nat.eqb_sym i i0). destruct (i0 =? i) eqn:Ei; [now rewrite orb_true_r|rewrite orb_false_r; auto].
    + destruct (i0 =? i) eqn:Ei; auto. apply Nat.eqb_eq in Ei. subst i0. cbn. auto.
    + rewrite m_shut. split; apply open_same; autorewrite with snoc; now rewrite app_nil_r.
  - apply always_snoc; auto. split; [exact I|split; [exact I|split; [exact I|split; [|intros; exact I]]]]. intros Hsw. cbn. destruct w_mir0. rewrite <- m_arr. apply w_latest0; auto. unfold ope. now rewrite Hsub, Hcl.
Qed.

(** Commands pushed when nothing is left to be run. *)
Definition final (s : st) K (c : cmd) : Prop :=
  match c with
  | KTell _ => True
  | KTear => shut s = true \/ closing_in K = true
  | KUnsubFrom i => s_cur s = Some i
  | _ => False
  end.
Lemma W_enter : forall K s x, W [] s -> (forall c, In c K -> final s K c) ->
  (x = s_cur s \/ x = None /\ forall i, s_cur s = Some i -> In (KUnsubFrom i) K) -> W K (with_cur s x).
Proof.
  intros K s x H HK Hx.
  assert (P1 : pend K = []).
  { destruct (pend K) as [|y l] eqn:Q; auto. assert (Z : In y (pend K)) by (rewrite Q; now left). apply in_flat_map in Z. destruct Z as (c & Z1 & Z2).
    apply HK in Z1. destruct c; try destruct Z2; destruct Z1. }
  assert (P2 : forallb noic K = true).
  { apply forallb_forall. intros c Hc. apply HK in Hc. destruct c; auto. }
  assert (B : s_busy s = []) by (destruct (s_busy s) as [|y l] eqn:Q; auto; destruct (w_busy H y); rewrite Q; now left).
  assert (No : forall c, In c K -> match c with KTell _ | KTear | KUnsubFrom _ => True | _ => False end).
  { intros c Hc. apply HK in Hc. destruct c; auto. }
  destruct H. change (pend []) with (@nil nat) in *. change (nic []) with 0 in *.
  constructor; rewrite ?P1, ?noic_nic by auto; auto using noic_tl; try (intros; contradiction).
  - apply Forall_forall. intros c Hc. apply HK in Hc. destruct c; cbn in *; auto.
  - intros i Hi. cbn [s_cur with_cur]. destruct (w_cur0 i Hi) as [Z|[Z|Z]]; try (destruct Z; fail). destruct Hx as [Hx|[_ Hx]]; [left; congruence|auto].
  - intros i. cbn [s_cur with_cur]. destruct Hx as [Hx|[Hx _]]; rewrite Hx; [apply w_cursub0|discriminate].
  - intros i Hi. destruct (w_comp0 i Hi); auto. discriminate.
  - intros i Hi. apply No in Hi. destruct Hi.
  - clear - No. induction K as [|c K IH]; auto. assert (Z := No c (or_introl eq_refl)). destruct c; try destruct Z; apply IH; intros; apply No; now right.
  - cbn. rewrite B. intros i [].
  - intros Z. destruct (w_down0 Z); auto. discriminate.
  - intros Z. destruct (w_uperr0 Z); auto. discriminate.
  - intros Z. destruct (w_torn0 Z); auto. discriminate.
  - intros Z. apply HK in Z. auto.
  - revert w_mir0. apply mirror_same; auto.
Qed.

Ltac nope := intros; repeat match goal with H : In _ (_ :: _) |- _ => destruct H as [H|H]; [discriminate|] | H : In _ [] |- _ => destruct H end.
Lemma step_W : forall c K s s' K1, W (c :: K) s -> step c s = Some (s', K1) -> W (K1 ++ K) s'.
Proof.
  intros c K s s' K1 H R. destruct (W_tl H) as (T1 & T2 & T3 & T4).
  destruct c as [m| | | |i l|i m|i|i|i|i|i| |i| |i]; cbn in T4; try contradiction.
  - eapply tell_W; eauto.
  - (* KTear *)
    cbn in R. assert (Z : K1 = [] /\ (s' = s \/ s' = with_torn s true)).
    { destruct (s_torn s); [injection R as <- <-; auto|]. destruct k; [contradiction| |]; injection R as <- <-; auto. }
    destruct Z as [-> Z]. assert (P : W K s) by (apply (@W_pop KTear); auto; intros j; [intros [Q|Q]|intros Q]; discriminate).
    destruct Z as [->| ->]; auto. apply W_torn; auto. exact (w_tear H (or_introl eq_refl)).
  - eapply create_W; eauto.
  - (* KCall *)
    cbn [HoModel.step] in R. destruct (i_closed (s_inner s i) || negb (i_sub (s_inner s i))) eqn:Ec.
    + injection R as <- <-. apply (@W_pop (KCall i m)); auto; intros j; [intros [Q|Q]|intros Q]; discriminate.
    + apply orb_false_iff in Ec. destruct Ec as [Ec Es]. apply negb_false_iff in Es.
      assert (Ho : ope (s_inner s i) = true) by (unfold ope; now rewrite Ec, Es).
      assert (Hpe : pend (KCall i m :: K) = []).
      { destruct (pend (KCall i m :: K)) as [|x l] eqn:Q; auto. destruct (w_create H x i) as [_ [K' Z]]; [rewrite Q; now left|auto|discriminate]. }
      assert (Hh : k = Switch -> heard (s_tr s) (TIn i m)).
      { intros Hsw. cbn. pose proof (w_mir H) as M. rewrite <- (m_arr M). apply (w_latest H); auto. }
      assert (Push : forall K1, m <> Cmp -> forallb (@silent A E) K1 = true -> forallb noic K1 = true -> pend K1 = [] ->
        Forall (okf1 s) K1 -> (forall j, In (KUnsubFrom j) K1 -> False) -> (In KTear K1 -> False) -> forallb nochk K1 = true -> W (K1 ++ K) (log s (TIn i m))).
      { intros K2 Hm H1 H2 H3 H4 H5 H6 H7. apply (@W_stack (KCall i m)); auto; try contradiction.
        - apply W_log; auto. destruct m; auto.
        - intros j [Q|Q]; discriminate.
        - intros j Q; discriminate.
        }
      destruct m as [a|e| |].
      * injection R as <- <-. apply Push; auto; try discriminate; nope.
      * destruct (set_error (s_down (log s (TIn i (Err e))))) as [d|] eqn:Ed; [|discriminate]. injection R as <- <-.
        apply W_down; [apply W_queue|auto]. apply Push; auto; try discriminate; nope.
      * assert (Z : s' = with_inner (log s (TIn i Cmp)) i (set_completed (s_inner s i)) /\ K1 = [KInnerCompleted i; KUnsub i]).
        { destruct k; [contradiction| |]; injection R as <- <-; auto. }
        destruct Z as [-> ->]. now apply complete_W.
      * injection R as <- <-. apply Push; auto; try discriminate; nope.
  - (* KAfterNext *)
    cbn in R. destruct (t_shut (s_told s)) eqn:Es; injection R as <- <-.
    + apply W_down; [|auto]. apply (@W_stack (KAfterNext i)); auto.
      * intros j [Q|Q]; discriminate.
      * discriminate.
      * intros j [Q|[]]; discriminate.
      * intros [Q|[]]; discriminate.
    + apply (@W_pop (KAfterNext i)); auto; intros j; [intros [Q|Q]|intros Q]; discriminate.
  - (* KInnerCompleted *)
    cbn [HoModel.step] in R. destruct (s_nc s) as [|nc] eqn:En; [discriminate|].
    set (s1 := with_counts s nc (s_nu s)) in *.
    assert (Hop : ope (s_inner s i) = true) by (unfold ope; rewrite (w_icopen H i (or_introl eq_refl)), (proj1 T4); auto).
    assert (Hpe : pend K = []).
    { change (pend (KInnerCompleted i :: K) = []). destruct (pend (KInnerCompleted i :: K)) as [|x l] eqn:Q; auto. destruct (w_create H x i) as [_ [K' Z]]; [rewrite Q; now left|auto|discriminate]. }
    assert (P : forall K0, K0 = [] \/ K0 = [KTell Cmp] -> W (K0 ++ K) s1).
    { intros K0 HK0. destruct H. rewrite pend_cons, nic_cons in *. cbn [pend1 is_ic app Nat.add] in *.
      assert (C : forall x, shut s = true \/ closing_in (KInnerCompleted x :: K) = true -> shut s = true \/ closing_in (K0 ++ K) = true).
      { intros x. rewrite closing_app. cbn. change (existsb (fun c => match c with KTell m => is_closing m | _ => false end) K) with (closing_in K).
        intros [Z|Z]; auto. rewrite Z, orb_true_r. auto. }
      assert (Cp : pend (K0 ++ K) = []) by (destruct HK0; subst; auto).
      assert (Cn : nic (K0 ++ K) = 0) by (rewrite nic_app, T2; destruct HK0; subst; auto).
      assert (Ci : forall c, In c K -> In c (K0 ++ K)) by (intros; apply in_or_app; auto).
      assert (Ci' : forall c, In c (K0 ++ K) -> In c K \/ c = KTell Cmp) by (intros c Hc; apply in_app_or in Hc; destruct Hc as [Hc|Hc]; auto; destruct HK0; subst; [destruct Hc|destruct Hc as [<-|[]]; auto]).
      constructor; rewrite ?Cp, ?Cn; auto; try (intros; contradiction); try congruence.
      - apply Forall_app. split; auto. destruct HK0; subst; repeat constructor.
      - change (s_nc s1) with nc. rewrite Hpe, T2, En in *. change (num liv s1) with (num liv s). cbn [length] in *. lia.
      - rewrite Hpe in *. auto.
      - intros j Hj. destruct (w_cur0 j Hj) as [Z|[[Z|Z]|[Z|Z]]]; try discriminate; auto.
      - intros j Hj. destruct (w_comp0 j Hj) as [Z|Z]; auto. right. apply before_app; auto. destruct HK0; subst; auto.
      - destruct HK0; subst; cbn [app tl]; auto using noic_tl.
      - intros j Hj. destruct (Ci' _ Hj) as [Z|Z]; [|discriminate]. eapply noic_in in Z; eauto. contradiction.
      - destruct HK0; subst; auto.
      - intros j Hj. destruct (Ci' _ Hj) as [Z|Z]; [|discriminate]. apply (w_from0 j). now right.
      - intros j Hj. destruct (w_busy0 j Hj) as [Z|Z]; [discriminate|auto].
      - intros Z. apply (C i). auto.
      - intros Z. apply (C i). auto.
      - intros Z. apply (C i). auto.
      - intros Z. destruct (Ci' _ Z) as [Q|Q]; [|discriminate]. apply (C i), w_tear0. now right.
      - revert w_mir0. apply mirror_same; auto. }
    destruct (can_downstream_complete s1); [|injection R as <- <-; apply (P []); auto].
    destruct (set_complete (s_down s1)) as [d|] eqn:Ed; [|discriminate]. injection R as <- <-.
    apply W_down; auto.
  - (* KUnsub *) cbn in R. eapply do_unsub_W; eauto.
  - (* KUnsubFrom *)
    cbn in R. rewrite (w_from H i (or_introl eq_refl)) in R. cbn in R. eapply do_unsub_W; eauto.
  - (* KOnUnsub *)
    assert (Z : s' = s /\ K1 = if can_downstream_unsubscribe s then [KTear; KTell Uns] else []).
    { cbn in R. destruct k; [contradiction| |]; injection R as <- <-; auto. }
    destruct Z as [-> ->].
    destruct (can_downstream_unsubscribe s) eqn:Ecan; [|apply (@W_pop (KOnUnsub i)); auto; intros j; [intros [Q|Q]|intros Q]; discriminate].
    apply (@W_stack (KOnUnsub i)); auto.
    + intros j [Q|Q]; discriminate.
    + discriminate.
    + repeat constructor.
    + intros j [Q|[Q|[]]]; discriminate.
    + intros m Hm Hpe. pose proof (w_nu H) as Q. rewrite pend_cons in Q. cbn [pend1 app] in Q.
      assert (Y : shut s = true \/ closing_in (KOnUnsub i :: K) = true).
      { unfold can_downstream_unsubscribe in Ecan. destruct (pend K); [congruence|]. cbn [length] in Q. destruct (s_nu s); [lia|].
        replace (S n0 =? 0) with false in Ecan by reflexivity. rewrite andb_false_r in Ecan. cbn in Ecan.
        apply orb_true_iff in Ecan. destruct Ecan as [Ecan|Ecan]; [now apply (w_uperr H)|now apply (w_down H)]. }
      destruct Y as [Y|Y]; auto. destruct (closing_tell _ Y) as [x Z]. apply (w_quiet H x); auto.
  - (* KSubscribed *)
    cbn in R. destruct (i_closed (s_inner s i)) eqn:Ec.
    + injection R as <- <-. apply (@W_pop (KSubscribed i)); auto; intros j; [intros [Q|Q]; discriminate|intros Q; injection Q as <-; auto].
    + assert (Z : s' = with_cur s (Some i) /\ K1 = []) by (destruct k; [contradiction| |]; injection R as <- <-; auto). destruct Z as [-> ->].
      apply (@W_pop (KSubscribed i)); auto.
      * apply W_cur; auto. unfold ope. now rewrite T4, Ec.
      * intros j [Q|Q]; discriminate.
      * intros j Q. injection Q as <-. auto.
  - (* KCheck *)
    assert (HK : K = []) by (pose proof (w_check H) as Q; cbn in Q; destruct K; [auto|discriminate]). subst K. rewrite app_nil_r.
    assert (P : W [] s) by (apply (@W_pop KCheck); auto; intros j; [intros [Q|Q]|intros Q]; discriminate).
    cbn [HoModel.step] in R. destruct (t_shut (s_told s) && negb (s_torn s)) eqn:Es; injection R as <- <-; auto.
    apply andb_true_iff in Es. destruct Es as [Es _]. apply W_enter; auto.
    + intros c Hc. destruct Hc as [<-|[<-|Hc]]; cbn; auto. destruct (s_cur s) eqn:Ecu; [|destruct Hc]. destruct Hc as [<-|[]]. cbn. auto.
    + right. split; auto. intros i Hi. rewrite Hi. right. right. now left.
  - (* KFree *)
    cbn in R. injection R as <- <-. cbn [app].
    destruct H. rewrite pend_cons, nic_cons in *. cbn [pend1 is_ic app Nat.add] in *.
    assert (P6 : pend K <> [] -> existsb is_from K = false) by auto.
    constructor; auto using noic_tl; cbn [with_busy s_inner s_busy s_cur].
    + intros j Hj. destruct (w_cur0 j Hj) as [Z|[[Z|Z]|[Z|Z]]]; try discriminate; auto.
    + intros j Hj. eapply noic_in in Hj; eauto. contradiction.
    + intros a j Ha Hj. destruct (w_create0 a j Ha Hj) as [_ [K' Z]]. discriminate.
    + intros m Hm. apply (w_quiet0 m). now right.
    + intros j Hj. now rewrite (w_from0 j (or_intror Hj)).
    + intros j Hj. apply filter_In in Hj. destruct Hj as [Hj Hn]. destruct (w_busy0 j Hj) as [Z|Z]; auto. injection Z as ->. rewrite Nat.eqb_refl in Hn. discriminate.
    + intros Z. destruct (w_tear0 (or_intror Z)); auto.
    + revert w_mir0. apply mirror_same; auto.
    + intros Q. now apply from_tl, P6.
Qed.

Lemma W_cmp : forall s u, W [] s -> is_completed u = true -> is_errored u = is_errored (s_up s) -> W [] (with_up (log s (TUp Cmp)) u).
Proof.
  intros s u [] H1 H2. constructor; auto; cbn [s_up with_up log]; rewrite ?H1, ?H2; auto.
  - destruct w_mir0. constructor; intros; cbn [s_tr log s_inner with_up s_up s_told s_arrived]; autorewrite with snoc; rewrite ?orb_false_r, ?Nat.add_0_r, ?app_nil_r, ?orb_true_r; auto.
    rewrite m_shut. split; apply open_same; autorewrite with snoc; now rewrite app_nil_r.
  - intros i [].
  - apply always_snoc; auto. repeat split; intros; exact I.
Qed.

Definition cur_cmds s : list cmd := match s_cur s with Some j => [KUnsubFrom j] | None => [] end.
Lemma W_arrive : forall s l K0, W [] s -> k = Switch \/ s_nu s = 0 -> K0 = [] \/ K0 = [KCheck] ->
  W (cur_cmds s ++ KCreate (s_arrived s) l :: K0)
    (with_cur (with_counts (log (with_arrived s (S (s_arrived s))) (TArrive (s_arrived s))) (S (s_nc s)) (S (s_nu s))) None).
Proof.
  intros s l K0 H Hk0 HK0. set (i := s_arrived s). set (s' := with_cur _ None). set (K := cur_cmds s ++ _).
  assert (P0 : pend K0 = []) by (destruct HK0; subst; auto).
  assert (P1 : pend K = [i]) by (unfold K; rewrite pend_app, pend_cons, P0; unfold cur_cmds; destruct (s_cur s); auto).
  assert (P2 : forallb noic K = true) by (unfold K, cur_cmds; destruct (s_cur s), HK0; subst; auto).
  assert (B : s_busy s = []) by (destruct (s_busy s) as [|y l0] eqn:Q; auto; destruct (w_busy H y); rewrite Q; now left).
  assert (No : forall c, In c K -> match c with KUnsubFrom j => s_cur s = Some j | KCreate _ _ | KCheck => True | _ => False end).
  { intros c Hc. unfold K in Hc. apply in_app_or in Hc. destruct Hc as [Hc|[<-|Hc]]; auto.
    - unfold cur_cmds in Hc. destruct (s_cur s) eqn:Q; [|destruct Hc]. destruct Hc as [<-|[]]. auto.
    - destruct HK0; subst K0; [destruct Hc|]. destruct Hc as [<-|[]]. auto. }
  assert (Hfresh : s_inner s i = no_inner).
  { apply (w_none H). destruct (i_sub (s_inner s i)) eqn:Q; auto. apply (w_sub H) in Q. unfold i in Q. lia. }
  assert (Hn : forall f, f no_inner = false -> num f s' = num f s).
  { intros f Hf. unfold num. change (s_arrived s') with (S i). change (s_inner s') with (s_inner s). rewrite cnt_S. fold i. rewrite Hfresh, Hf. apply Nat.add_0_r. }
  assert (Cl : closing_in K = false).
  { destruct (closing_in K) eqn:Q; auto. apply closing_tell in Q. destruct Q as [m Q]. apply No in Q. destruct Q. }
  destruct H. change (pend []) with (@nil nat) in *. change (nic []) with 0 in *.
  constructor; rewrite ?P1, ?noic_nic by auto; auto using noic_tl.
  - intros j Hj. apply w_sub0 in Hj. change (s_arrived s') with (S (s_arrived s)). lia.
  - apply Forall_forall. intros c Hc. apply No in Hc. destruct c; cbn; auto; contradiction.
  - intros j [<-|[]]. split; auto.
  - rewrite Hn by reflexivity. change (s_nc s') with (S (s_nc s)). cbn [length] in *. lia.
  - rewrite Hn by reflexivity. change (s_nu s') with (S (s_nu s)). cbn [length] in *. lia.
  - intros j Hj. right. left. destruct (w_cur0 j Hj) as [Z|[[]|[]]]. unfold K, cur_cmds. rewrite Z. now left.
  - discriminate.
  - intros j Hj. destruct (w_comp0 j Hj); auto. discriminate.
  - intros j Hj. apply No in Hj. destruct Hj.
  - intros a j _ Hj. destruct (w_cur0 j Hj) as [Z|[[]|[]]]. split; [|unfold K, cur_cmds; rewrite Z; cbn; eauto].
    change (ope (s_inner s j) = true) in Hj. destruct Hk0 as [Q|Q]; auto. rewrite Q in w_nu0. assert (Y : ope (s_inner s j) = false); [|congruence].
    apply (@cnt_zero (fun j => ope (s_inner s j)) (s_arrived s)); [unfold num in w_nu0; cbn [length] in w_nu0; lia|]. apply w_sub0. unfold ope in Hj. apply andb_true_iff in Hj. tauto.
  - intros m Hm. apply No in Hm. destruct Hm.
  - unfold K, cur_cmds. destruct (s_cur s), HK0; subst; auto.
  - intros j Hj. cbn in Hj. rewrite B in Hj. destruct Hj.
  - intros _ j _ Q. discriminate.
  - intros Z. destruct (w_down0 Z); auto. discriminate.
  - intros Z. destruct (w_uperr0 Z); auto. discriminate.
  - intros Z. destruct (w_torn0 Z); auto. discriminate.
  - intros Z. apply No in Z. destruct Z.
  - destruct w_mir0. constructor; intros; cbn [s' s_tr log s_inner with_cur with_counts with_arrived s_up s_told s_arrived]; autorewrite with snoc; rewrite ?orb_false_r, ?Nat.add_0_r, ?app_nil_r; auto.
    + rewrite <- m_arr. lia.
    + rewrite m_shut. split; apply open_same; autorewrite with snoc; now rewrite app_nil_r.
  - intros j [<-|[]]. exists (s_tr s). split; auto. left. auto.
  - intros _. unfold K, cur_cmds. destruct (s_cur s), HK0; subst; auto.
  - apply always_snoc; auto. repeat split; intros; exact I.
Qed.

Lemma W_skip : forall s, W [] s -> k = Exhaust -> W [] (log (with_arrived s (S (s_arrived s))) (TArrive (s_arrived s))).
Proof.
  intros s H Hex. set (i := s_arrived s). set (s' := log _ _).
  assert (Hfresh : s_inner s i = no_inner).
  { apply (w_none H). destruct (i_sub (s_inner s i)) eqn:Q; auto. apply (w_sub H) in Q. unfold i in Q. lia. }
  assert (Hn : forall f, f no_inner = false -> num f s' = num f s).
  { intros f Hf. unfold num. change (s_arrived s') with (S i). change (s_inner s') with (s_inner s). rewrite cnt_S. fold i. rewrite Hfresh, Hf. apply Nat.add_0_r. }
  destruct H. constructor; auto.
  - intros j Hj. apply w_sub0 in Hj. change (s_arrived s') with (S (s_arrived s)). lia.
  - intros j [].
  - rewrite Hn by reflexivity. auto.
  - rewrite Hn by reflexivity. auto.
  - congruence.
  - destruct w_mir0. constructor; intros; cbn [s' s_tr log s_inner with_cur with_counts with_arrived s_up s_told s_arrived]; autorewrite with snoc; rewrite ?orb_false_r, ?Nat.add_0_r, ?app_nil_r; auto.
    + rewrite <- m_arr. lia.
    + rewrite m_shut. split; apply open_same; autorewrite with snoc; now rewrite app_nil_r.
  - intros j [].
  - apply always_snoc; auto. repeat split; intros; exact I.
Qed.

Lemma perform_W : forall a s s' K, W [] s -> perform k a s = Some (s', K) -> W K s'.
Proof.
  intros a s s' K H R.
  assert (Lg : forall m, m <> Cmp -> W [] (log s (TUp m))).
  { intros m Hm. apply W_log; auto. - destruct m; auto; contradiction. - intros _. exact I. }
  assert (Cu : forall x, In x (cur_cmds s) -> exists i, x = KUnsubFrom i /\ s_cur s = Some i).
  { intros x Hx. unfold cur_cmds in Hx. destruct (s_cur s); [|destruct Hx]. destruct Hx as [<-|[]]. eauto. }
  assert (Cu2 : forall i, s_cur s = Some i -> In (KUnsubFrom i) (cur_cmds s)) by (intros i Hi; unfold cur_cmds; rewrite Hi; now left).
  destruct a as [l|e| | |i m]; cbn [perform] in R.
  - destruct (is_torn k s); [injection R as <- <-; auto|]. destruct k eqn:Ek; [contradiction| |].
    + injection R as <- <-. apply W_arrive; auto.
    + change (s_nu (log (with_arrived s (S (s_arrived s))) (TArrive (s_arrived s)))) with (s_nu s) in R.
      destruct (s_nu s =? 0) eqn:En; injection R as <- <-.
      * apply Nat.eqb_eq in En. apply W_arrive; auto.
      * apply W_skip; auto.
  - destruct (is_torn k s); [injection R as <- <-; auto|].
    destruct (set_error (s_up (log s (TUp (Err e))))) as [u|] eqn:Eu; [|discriminate]. apply se_some in Eu. destruct Eu as (_ & _ & U1 & U2).
    assert (P : W [] (with_queue (log s (TUp (Err e))) [])) by (apply W_queue, Lg; discriminate).
    assert (Fin : forall K0 x, closing_in K0 = true -> (forall c, In c K0 -> final (with_queue (log s (TUp (Err e))) []) K0 c) ->
      (x = s_cur s \/ x = None /\ forall i, s_cur s = Some i -> In (KUnsubFrom i) K0) -> W K0 (with_up (with_cur (with_queue (log s (TUp (Err e))) []) x) u)).
    { intros K0 x C1 C2 C3. apply W_up; auto. now apply W_enter. }
    destruct k eqn:Ek; [contradiction| |]; injection R as <- <-.
    + refine (Fin _ None _ _ _); auto.
      * intros c Hc. destruct Hc as [<-|[<-|[<-|Hc]]]; cbn; auto. apply Cu in Hc. destruct Hc as (i & -> & Hi). exact Hi.
      * right. split; auto. intros i Hi. right. right. right. auto.
    + refine (Fin _ (s_cur s) _ _ _); auto. intros c Hc. destruct Hc as [<-|Hc]; cbn; auto. apply in_app_or in Hc. destruct Hc as [Hc|[<-|[<-|[]]]]; cbn; auto.
      apply Cu in Hc. destruct Hc as (i & -> & Hi). exact Hi.
  - destruct (is_torn k s); [injection R as <- <-; auto|].
    destruct (set_complete (s_up (log s (TUp Cmp)))) as [u|] eqn:Eu; [|discriminate]. apply sc_some in Eu. destruct Eu as (_ & U1 & U2 & _).
    destruct (set_unsubscribe u) as [u'|] eqn:Eu'; [|discriminate]. apply su_some in Eu'. destruct Eu' as (_ & V1 & V2 & V3).
    assert (P : W [] (with_up (log s (TUp Cmp)) u')) by (apply W_cmp; [auto|congruence|rewrite V2; exact U2]).
    destruct (can_downstream_complete _); [|injection R as <- <-; auto].
    assert (Fin : forall K0 x, (forall c, In c K0 -> final (with_up (log s (TUp Cmp)) u') K0 c) ->
      (x = s_cur s \/ x = None /\ forall i, s_cur s = Some i -> In (KUnsubFrom i) K0) -> W K0 (with_cur (with_up (log s (TUp Cmp)) u') x)).
    { intros K0 x C1 C2. now apply W_enter. }
    destruct k eqn:Ek; [contradiction| |]; injection R as <- <-.
    + refine (Fin _ None _ _).
      * intros c Hc. destruct Hc as [<-|[<-|[<-|Hc]]]; cbn; auto. apply Cu in Hc. destruct Hc as (i & -> & Hi). exact Hi.
      * right. split; auto. intros i Hi. right. right. right. auto.
    + refine (Fin _ (s_cur s) _ _); auto. intros c Hc. destruct Hc as [<-|Hc]; cbn; auto. apply in_app_or in Hc. destruct Hc as [Hc|[<-|[<-|[]]]]; cbn; auto.
      apply Cu in Hc. destruct Hc as (i & -> & Hi). exact Hi.
  - destruct (is_torn k s) eqn:Et; [injection R as <- <-; auto|].
    assert (P : W [] (log s (TUp Uns))) by (apply Lg; discriminate).
    unfold unsubscribe in R. change (is_torn k (log s (TUp Uns))) with (is_torn k s) in R. rewrite Et in R.
    destruct k eqn:Ek; [contradiction| |]; injection R as <- <-.
    + apply W_enter; auto.
      * intros c Hc. destruct Hc as [<-|[<-|Hc]]; cbn; auto. apply Cu in Hc. destruct Hc as (i & -> & Hi). exact Hi.
      * right. split; auto. intros i Hi. right. right. apply Cu2. auto.
    + change (W (cur_cmds s ++ [KTear; KTell Uns]) (with_cur (log s (TUp Uns)) (s_cur s))). apply W_enter; auto.
      intros c Hc. apply in_app_or in Hc. destruct Hc as [Hc|[<-|[<-|[]]]]; cbn; auto.
      * apply Cu in Hc. destruct Hc as (i & -> & Hi). exact Hi.
      * right. rewrite closing_app. cbn. apply orb_true_r.
  - destruct (i_closed (s_inner s i) || negb (i_sub (s_inner s i))) eqn:Ec; injection R as <- <-; auto.
    assert (B : s_busy s = []) by (destruct (s_busy s) as [|y l0] eqn:Q; auto; destruct (w_busy H y); rewrite Q; now left).
    destruct H. change (pend []) with (@nil nat) in *. change (nic []) with 0 in *.
    assert (P1 : pend [KCall i m; KFree i] = []) by reflexivity. assert (P2 : nic [KCall i m; KFree i] = 0) by reflexivity.
    constructor; rewrite ?P1, ?P2; auto; try (intros; contradiction).
    + repeat constructor.
    + intros j Hj. destruct (w_cur0 j Hj) as [Z|[[]|[]]]; auto.
    + intros j Hj. destruct (w_comp0 j Hj); auto. discriminate.
    + nope.
    + nope.
    + intros j Hj. cbn in Hj. rewrite B in Hj. destruct Hj as [<-|[]]. right. now left.
    + nope.
    + revert w_mir0. apply mirror_same; auto.
Qed.

Lemma init_W : W [] init.
Proof.
  constructor; cbn; auto; try (intros; contradiction); try discriminate; try (intros; discriminate).
  - constructor; cbn; auto. split; auto using open_nil.
  - apply always_nil.
Qed.
Lemma flatten_W : forall fuel h s, flatten down k fuel h init = Fine s -> W [] s.
Proof.
  intros fuel h s R. eapply (@flatten_inv A E down k (fun _ _ => True) W); eauto using init_W.
  - apply step_W.
  - intros a s0 s1 K1 H _ Hp. eapply perform_W; eauto.
Qed.
End One.
