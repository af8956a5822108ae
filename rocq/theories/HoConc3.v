(** Proofs about [HoModel]: the concurrent subscriber with a limit of at least two, after the end:
    everything is released, nothing is subscribed to, nothing panics. *)
From Coq Require Import NArith.
From Verif Require Import Base SubscrModel LifeModel CombModel HoModel HoSpec LifeProofs HoProofs HoConc HoConc2.
Set Implicit Arguments.

Section Conc3.
Variables A E : Type.
Variable down : list (ncall A E) -> bool.
Variable L : nat.
Hypothesis HL : 2 <= L.
Notation st := (HoModel.st A E).
Notation cmd := (HoModel.cmd A E).
Notation step := (HoModel.step down (Concurrent L)).
Notation I1 := (HoConc.I1 down L).
Implicit Types (s : st) (K : list cmd).

(** The commands about the inner observable [i]. *)
Definition about (i : nat) (c : cmd) : bool :=
  match c with KCall j _ | KAfterNext j | KUnsub j | KSubscribed j | KFree j => j =? i | _ => false end.
Definition first (i : nat) K : option cmd := find (about i) K.
Definition loose (i : nat) K : bool := match first i K with Some (KCall _ _) | Some (KFree _) => true | _ => false end.
Definition hd_about (i : nat) K : bool := match K with c :: _ => about i c | [] => false end.
Definition headed (i : nat) K : Prop := loose i K = true -> hd_about i K = true.
Fixpoint tidy K : Prop :=
  match K with
  | [] => True
  | c :: K' => tidy K' /\
      match c with
      | KCall i _ | KAfterNext i => headed i K' /\ first i K' <> None
      | KSubscribed i => first i K' = None
      | KFree _ => K' = []
      | _ => True
      end
  end.

Record S3 K s : Prop := {
  r_tidy : tidy K;
  r_sub : forall i c, In c K -> about i c = true -> i_sub (s_inner s i) = true;
  r_head : forall i, i_closed (s_inner s i) = false -> headed i K;
  r_tight : shut s = true -> forall i, i_closed (s_inner s i) = false -> loose i K = false;
  r_busy : forall i, In i (s_busy s) -> In (KFree i) K;
  r_slab : forall l i, In l (s_slab s) -> In i l -> i_closed (s_inner s i) = false -> first i K = None \/ In i (s_busy s);
  r_pre : shut s = false -> forall i, i_sub (s_inner s i) = true -> i_closed (s_inner s i) = false ->
            first i K = None \/ In i (s_busy s) -> exists l, In l (s_slab s) /\ In i l;
  r_post : shut s = true -> forall i, i_sub (s_inner s i) = true -> i_closed (s_inner s i) = false -> first i K = None ->
            (s_torn s = false /\ exists l, In l (s_slab s) /\ In i l) \/ In (KUnsubFrom i) K;
  r_tear : shut s = true -> s_torn s = false -> exists K', K = KTear :: K';
  r_torn : s_torn s = true -> s_slab s = [];
  r_still : shut s = true -> nadv K = 0 /\ pend K = [];
  r_late : always (none_late down) (s_tr s)
}.

Definition alien (c : cmd) : bool := match c with KCall _ _ | KAfterNext _ | KUnsub _ | KSubscribed _ | KFree _ => false | _ => true end.
Lemma alien_about : forall i c, alien c = true -> about i c = false.
Proof. intros i c H. destruct c; try discriminate; auto. Qed.
Lemma first_alien : forall i K1 K, forallb alien K1 = true -> first i (K1 ++ K) = first i K.
Proof.
  intros i. induction K1 as [|c K1 IH]; cbn; intros K H; auto. apply andb_true_iff in H. destruct H as [H1 H2].
  rewrite alien_about by auto. now apply IH.
Qed.
Lemma loose_first : forall i K K', first i K = first i K' -> loose i K = loose i K'.
Proof. intros i K K' H. unfold loose. now rewrite H. Qed.
Lemma tidy_alien : forall K1 K, forallb alien K1 = true -> tidy K -> tidy (K1 ++ K).
Proof.
  induction K1 as [|c K1 IH]; cbn [app tidy forallb]; intros K H T; auto. apply andb_true_iff in H. destruct H as [H1 H2].
  split; auto. destruct c; try discriminate; exact I.
Qed.
Lemma first_none : forall i K, (forall c, In c K -> about i c = false) -> first i K = None.
Proof. intros i K H. unfold first. destruct (find (about i) K) eqn:Q; auto. apply find_some in Q. destruct Q as [Q1 Q2]. rewrite H in Q2; auto. discriminate. Qed.
Lemma free_first : forall i K, In (KFree i) K -> first i K <> None.
Proof. intros i K H Q. unfold first in Q. pose proof (find_none _ _ Q _ H) as Z. cbn in Z. rewrite Nat.eqb_refl in Z. discriminate. Qed.
Lemma tight_alien : forall c K s i, S3 (c :: K) s -> alien c = true -> i_closed (s_inner s i) = false -> loose i K = false.
Proof.
  intros c K s i H Hc Hi. pose proof (r_head H i Hi) as Z. unfold headed in Z. cbn in Z. rewrite alien_about in Z by auto.
  rewrite (loose_first i (c :: K) K) in Z by (apply (@first_alien i [c]); cbn; now rewrite Hc). destruct (loose i K); auto. now specialize (Z eq_refl).
Qed.

(** *** Commands about no inner observable. *)
Definition same s s' : Prop := s_inner s' = s_inner s /\ s_busy s' = s_busy s /\ s_slab s' = s_slab s /\
  s_torn s' = s_torn s /\ shut s' = shut s /\ s_tr s' = s_tr s.
Lemma S3_alien : forall c K K1 s s', S3 (c :: K) s -> alien c = true -> forallb alien K1 = true -> same s s' ->
  (shut s = true -> s_torn s = true) -> (forall i, c = KUnsubFrom i -> i_closed (s_inner s i) = true \/ In i (s_busy s)) ->
  (shut s = true -> nadv K1 = 0 /\ pend K1 = []) -> S3 (K1 ++ K) s'.
Proof.
  intros c K K1 s s' H Hc H1 (E1 & E2 & E3 & E4 & E5 & E6) Ht Hu Hn.
  assert (Hf : forall i, first i (K1 ++ K) = first i (c :: K)).
  { intros i. rewrite first_alien by auto. symmetry. apply (@first_alien i [c]). cbn. now rewrite Hc. }
  assert (Hl : forall i, i_closed (s_inner s i) = false -> loose i (K1 ++ K) = false).
  { intros i Hi. rewrite (loose_first i _ (c :: K)) by auto. rewrite (loose_first i _ K); [eapply tight_alien; eauto|]. apply (@first_alien i [c]). cbn. now rewrite Hc. }
  assert (Hloose := fun i => @tight_alien c K s i H Hc).
  constructor; rewrite ?E1, ?E2, ?E3, ?E4, ?E5, ?E6.
  - apply tidy_alien; auto. apply (r_tidy H).
  - intros i x Hx Ha. apply in_app_or in Hx. destruct Hx as [Hx|Hx]; [|eapply (r_sub H); eauto; now right].
    rewrite forallb_forall in H1. rewrite (alien_about i x) in Ha; [discriminate|auto].
  - intros i Hi Q. rewrite Hl in Q by auto. discriminate.
  - auto.
  - intros i Hi. destruct (r_busy H i Hi) as [->|Z]; [discriminate|]. apply in_or_app. auto.
  - intros l i. rewrite Hf. apply (r_slab H).
  - intros Hs i. rewrite Hf. apply (r_pre H Hs).
  - intros Hs i Hi Hci. rewrite Hf. intros Hfi. destruct (r_post H Hs i Hi Hci Hfi) as [[Q _]|Q]; [rewrite Ht in Q; auto; discriminate|].
    right. apply in_or_app. right. destruct Q as [Q|Q]; auto. exfalso. destruct (Hu i Q) as [Z|Z]; [congruence|].
    apply (r_busy H) in Z. now apply free_first in Z.
  - intros Hs Q. rewrite Ht in Q; auto. discriminate.
  - apply (r_torn H).
  - intros Hs. destruct (r_still H Hs) as [Q1 Q2]. rewrite nadv_cons in Q1. rewrite pend_cons in Q2. apply app_eq_nil in Q2.
    destruct (Hn Hs) as [Q3 Q4]. rewrite nadv_app, pend_app, Q3, Q4. cbn. split; [lia|]. apply Q2.
  - apply (r_late H).
Qed.
Lemma torn_now : forall c K s, S3 (c :: K) s -> c <> KTear -> shut s = true -> s_torn s = true.
Proof. intros c K s H Hc Hs. destruct (s_torn s) eqn:Q; auto. destruct (r_tear H Hs Q) as [K' Z]. congruence. Qed.

(** *** Unsubscribing. *)
Lemma S3_unsub : forall c i K s s' K1, S3 (c :: K) s -> c = KUnsub i \/ (c = KUnsubFrom i /\ ~ In i (s_busy s)) ->
  do_unsub i s = Some (s', K1) -> S3 (K1 ++ K) s'.
Proof.
  intros c i K s s' K1 H Hc R.
  assert (Ht : shut s = true -> s_torn s = true) by (apply (torn_now H); destruct Hc as [-> |[-> _]]; discriminate).
  assert (Hab : forall j, j <> i -> about j c = false).
  { intros j Hj. destruct Hc as [-> |[-> _]]; cbn; auto. apply Nat.eqb_neq. auto. }
  assert (Hf : forall j, j <> i -> first j (c :: K) = first j K) by (intros j Hj; unfold first; cbn; now rewrite Hab).
  assert (Hadv : shut s = true -> nadv K = 0 /\ pend K = []).
  { intros Hs. destruct (r_still H Hs) as [Q1 Q2]. rewrite nadv_cons in Q1. rewrite pend_cons in Q2. apply app_eq_nil in Q2. split; [lia|tauto]. }
  assert (Hlo : forall j, j <> i -> i_closed (s_inner s j) = false -> loose j K = false).
  { intros j Hj Hcj. pose proof (r_head H j Hcj) as Z. unfold headed in Z. cbn [hd_about] in Z. rewrite Hab in Z by auto.
    rewrite (loose_first j (c :: K) K) in Z by auto. destruct (loose j K); auto. now specialize (Z eq_refl). }
  assert (Hbu : forall j, In j (s_busy s) -> In (KFree j) K).
  { intros j Hj. destruct (r_busy H j Hj) as [Z|Z]; auto. destruct Hc as [Hc|[Hc _]]; rewrite Hc in Z; discriminate. }
  assert (Hpo : shut s = true -> forall j, j <> i -> i_sub (s_inner s j) = true -> i_closed (s_inner s j) = false -> first j K = None -> In (KUnsubFrom j) K).
  { intros Hs j Hj Hsj Hcj Hfj. rewrite <- (Hf j Hj) in Hfj. destruct (r_post H Hs j Hsj Hcj Hfj) as [[Q _]|[Q|Q]]; auto; [rewrite Ht in Q; auto; discriminate|].
    exfalso. destruct Hc as [Hc|[Hc _]]; rewrite Hc in Q; [discriminate|]. injection Q as ->. now apply Hj. }
  unfold do_unsub in R. destruct (i_closed (s_inner s i)) eqn:Ec.
  { inversion R; subst. clear R. cbn [app]. assert (Hne : forall j, i_closed (s_inner s' j) = false -> j <> i) by (intros j Hj ->; congruence).
    constructor; auto.
    - apply (r_tidy H).
    - intros j x Hx. apply (r_sub H). now right.
    - intros j Hj Q. rewrite Hlo in Q; auto. discriminate.
    - intros l j Hl Hj Hcj. rewrite <- Hf by auto. apply (r_slab H l); auto.
    - intros Hs j Hsj Hcj. rewrite <- Hf by auto. apply (r_pre H); auto.
    - intros Hs Q. rewrite Ht in Q; auto. discriminate.
    - apply (r_torn H).
    - apply (r_late H). }
  destruct (minus_one (s_nu s)) as [nu|]; [|discriminate]. destruct (if i_completed _ then _ else _) as [nc|]; [|discriminate].
  set (fire := (_ && _)%bool) in R. set (d := if can_downstream_unsubscribe s then _ else _) in R.
  set (s1 := with_counts _ _ _) in R. assert (Z : s' = s1 /\ K1 = (if fire then [KOnUnsub i] else [])) by (inversion R; auto). destruct Z as [-> ->]. clear R.
  set (K1 := if fire then [KOnUnsub i] else []).
  assert (HK1 : forallb alien K1 = true) by (unfold K1; now destruct fire).
  assert (Hin : forall j, i_closed (s_inner s1 j) = false -> j <> i /\ i_closed (s_inner s j) = false).
  { intros j. unfold s1. cbn [s_inner with_counts with_down log with_inner]. destruct (j =? i) eqn:Ej; [discriminate|]. intros Hj. split; auto. now apply Nat.eqb_neq. }
  assert (Hsu : forall j, i_sub (s_inner s j) = i_sub (s_inner s1 j)).
  { intros j. unfold s1. cbn [s_inner with_counts with_down log with_inner]. destruct (j =? i) eqn:Ej; auto. apply Nat.eqb_eq in Ej. now subst. }
  constructor.
  - apply tidy_alien; auto. apply (r_tidy H).
  - intros j x Hx Ha. rewrite <- Hsu. apply in_app_or in Hx. destruct Hx as [Hx|Hx]; [|eapply (r_sub H); eauto; now right].
    rewrite forallb_forall in HK1. rewrite (alien_about j x) in Ha; [discriminate|auto].
  - intros j Hj Q. apply Hin in Hj. destruct Hj as [Hj1 Hj2]. rewrite (loose_first j _ K) in Q by (now apply first_alien). rewrite Hlo in Q; auto. discriminate.
  - intros _ j Hj. apply Hin in Hj. destruct Hj as [Hj1 Hj2]. rewrite (loose_first j _ K) by (now apply first_alien). auto.
  - intros j Hj. apply in_or_app. right. apply Hbu. auto.
  - intros l j Hl Hj Hcj. apply Hin in Hcj. destruct Hcj as [Hc1 Hc2]. rewrite first_alien by auto. rewrite <- Hf by auto. apply (r_slab H l); auto.
  - intros Hs j Hsj Hcj. rewrite <- Hsu in Hsj. apply Hin in Hcj. destruct Hcj as [Hc1 Hc2]. rewrite first_alien by auto. rewrite <- Hf by auto. apply (r_pre H); auto.
  - intros Hs j Hsj Hcj. rewrite <- Hsu in Hsj. apply Hin in Hcj. destruct Hcj as [Hc1 Hc2]. rewrite first_alien by auto. intros Hfj.
    right. apply in_or_app. right. apply Hpo; auto.
  - intros Hs Q. change (s_torn s = false) in Q. rewrite Ht in Q; auto. discriminate.
  - apply (r_torn H).
  - intros Hs. destruct (Hadv Hs) as [Q1 Q2]. rewrite nadv_app, pend_app, Q1, Q2. unfold K1. now destruct fire.
  - apply always_snoc; [apply (r_late H)|exact I].
Qed.

(** *** A call: a command about [i] is replaced by one that comes first. *)
Lemma S3_call : forall c i K K1 s s', S3 (c :: K) s -> (exists m, c = KCall i m) \/ (c = KAfterNext i) \/ (c = KSubscribed i /\ shut s = true) ->
  s_busy s' = s_busy s -> s_slab s' = s_slab s -> s_torn s' = s_torn s -> shut s' = shut s ->
  (forall j, i_closed (s_inner s' j) = i_closed (s_inner s j) /\ i_sub (s_inner s' j) = i_sub (s_inner s j)) ->
  (s_tr s' = s_tr s \/ exists m, s_tr s' = s_tr s ++ [TIn i m]) ->
  tidy (K1 ++ K) -> (forall x, In x K1 -> alien x = true \/ about i x = true) ->
  (exists x, first i K1 = Some x /\ x <> KFree i /\ forall m, x <> KCall i m) ->
  (shut s = true -> nadv K1 = 0 /\ pend K1 = []) -> S3 (K1 ++ K) s'.
Proof.
  intros c i K K1 s s' H Hc E2 E3 E4 E5 Ei Et T Hx (x & Hfx & Hx1 & Hx2) Hn.
  assert (Hal : alien c = false) by (destruct Hc as [[m ->]|[-> |[-> _]]]; auto).
  assert (Hac : about i c = true) by (destruct Hc as [[m ->]|[-> |[-> _]]]; cbn; apply Nat.eqb_refl).
  assert (Hai : forall j x, about i x = true -> about j x = true -> j = i).
  { intros j y. destruct y; cbn; try discriminate; rewrite !Nat.eqb_eq; congruence. }
  assert (Ht : shut s = true -> s_torn s = true) by (apply (torn_now H); intros ->; discriminate).
  assert (Hfi : first i (K1 ++ K) = Some x).
  { clear - Hfx. unfold first in *. induction K1 as [|y K1 IH]; [discriminate|]. cbn in *. destruct (about i y); auto. }
  assert (Hli : loose i (K1 ++ K) = false).
  { unfold loose. rewrite Hfi. assert (Q := Hfx). apply find_some in Q. destruct Q as [_ Q].
    destruct x; auto; cbn in Q; apply Nat.eqb_eq in Q; subst i0; [now destruct (Hx2 c0)|now destruct Hx1]. }
  assert (Hf : forall j, j <> i -> first j (K1 ++ K) = first j (c :: K)).
  { intros j Hj. unfold first at 2. cbn. replace (about j c) with false by (destruct (about j c) eqn:Q; auto; destruct Hj; eapply Hai; eauto).
    fold (first j K). clear - Hx Hj Hai. induction K1 as [|y K1 IH]; auto. cbn. unfold first at 1. cbn.
    destruct (about j y) eqn:Q.
    - exfalso. destruct (Hx y (or_introl eq_refl)) as [Z|Z]; [rewrite alien_about in Q; auto; discriminate|]. apply Hj. eapply Hai; eauto.
    - apply IH. intros z Hz. apply Hx. now right. }
  assert (Hl : forall j, i_closed (s_inner s j) = false -> loose j (K1 ++ K) = false).
  { intros j Hj. destruct (Nat.eq_dec j i) as [->|Hji]; auto. rewrite (loose_first j _ (c :: K)) by auto.
    pose proof (r_head H j Hj) as Z. unfold headed in Z. cbn [hd_about] in Z. destruct (loose j (c :: K)); auto. exfalso. apply Hji. exact (Hai j c Hac (Z eq_refl)). }
  constructor; rewrite ?E2, ?E3, ?E4, ?E5; auto.
  - intros j y Hy Ha. destruct (Ei j) as [_ ->]. apply in_app_or in Hy. destruct Hy as [Hy|Hy]; [|eapply (r_sub H); eauto; now right].
    destruct (Hx y Hy) as [Z|Z]; [rewrite alien_about in Ha; auto; discriminate|]. rewrite (Hai j y Z Ha). exact (r_sub H i c (or_introl eq_refl) Hac).
  - intros j. destruct (Ei j) as [-> _]. intros Hj Q. rewrite Hl in Q; auto. discriminate.
  - intros _ j. destruct (Ei j) as [-> _]. auto.
  - intros j Hj. destruct (r_busy H j Hj) as [Z|Z]; [|apply in_or_app; auto]. exfalso. destruct Hc as [[m ->]|[-> |[-> _]]]; discriminate.
  - intros l j Hl1 Hj. destruct (Ei j) as [-> _]. intros Hcj. destruct (Nat.eq_dec j i) as [->|Hji].
    + destruct (r_slab H l i Hl1 Hj Hcj) as [Z|Z]; auto. unfold first in Z. cbn in Z. rewrite Hac in Z. discriminate.
    + rewrite Hf by auto. apply (r_slab H l); auto.
  - intros Hs j. destruct (Ei j) as [-> ->]. intros Hsj Hcj. destruct (Nat.eq_dec j i) as [->|Hji].
    + rewrite Hfi. intros [Z|Z]; [discriminate|]. apply (r_pre H); auto.
    + rewrite Hf by auto. apply (r_pre H); auto.
  - intros Hs j. destruct (Ei j) as [-> ->]. intros Hsj Hcj. destruct (Nat.eq_dec j i) as [->|Hji]; [rewrite Hfi; discriminate|].
    rewrite Hf by auto. intros Hfj. destruct (r_post H Hs j Hsj Hcj Hfj) as [Z|[Z|Z]]; auto; [|right; apply in_or_app; auto].
    exfalso. rewrite Z in Hal. discriminate.
  - intros Hs Q. rewrite Ht in Q; auto. discriminate.
  - apply (r_torn H).
  - intros Hs. destruct (r_still H Hs) as [Q1 Q2]. rewrite nadv_cons in Q1. rewrite pend_cons in Q2. apply app_eq_nil in Q2.
    destruct (Hn Hs) as [Q3 Q4]. rewrite nadv_app, pend_app, Q3, Q4. cbn. split; [lia|tauto].
  - destruct Et as [->|[m ->]]; [apply (r_late H)|]. apply always_snoc; [apply (r_late H)|exact I].
Qed.

Lemma hd_first : forall i K, headed i K -> loose i K = true -> exists c K', K = c :: K' /\ about i c = true.
Proof. intros i K H Q. specialize (H Q). destruct K as [|c K]; [discriminate|]. eauto. Qed.
Lemma about_other : forall i j (c : cmd), about i c = true -> about j c = true -> j = i.
Proof. intros i j y. destruct y; cbn; try discriminate; rewrite !Nat.eqb_eq; congruence. Qed.

Lemma in_replace : forall X (l : list X) n y (z : X), nth_error l n = Some y -> forall x, In x l ->
  In x (firstn n l ++ z :: skipn (Datatypes.S n) l) \/ x = y.
Proof.
  intros X l n y z Hn x Hx. apply In_nth_error in Hx. destruct Hx as [m Hm]. destruct (lt_eq_lt_dec m n) as [[H|H]|H].
  - left. apply in_or_app. left. rewrite <- (firstn_skipn n l) in Hm. rewrite nth_error_app1 in Hm.
    + eapply nth_error_In; eauto.
    + rewrite firstn_length. apply nth_error_Some_lt in Hn || (assert (n < length l) by (apply nth_error_Some; congruence)). lia.
  - right. congruence.
  - left. apply in_or_app. right. right. rewrite <- (firstn_skipn (Datatypes.S n) l) in Hm. rewrite nth_error_app2 in Hm.
    + eapply nth_error_In; eauto.
    + rewrite firstn_length. lia.
Qed.

(** The inner observable making a call is busy. *)
Definition Bz K s : Prop := forall i, In (KFree i) K -> In i (s_busy s).
Definition is_free (c : cmd) : bool := match c with KFree _ => true | _ => false end.
Lemma step_free : forall c s s' K1, step c s = Some (s', K1) -> is_free c = false ->
  s_busy s' = s_busy s /\ existsb is_free K1 = false.
Proof.
  intros c s s' K1 R Hc.
  assert (Un : forall i, do_unsub i s = Some (s', K1) -> s_busy s' = s_busy s /\ existsb is_free K1 = false).
  { intros i Hu. unfold do_unsub in Hu. destruct (i_closed (s_inner s i)); [inversion Hu; subst; auto|].
    destruct (minus_one (s_nu s)); [|discriminate]. destruct (if i_completed _ then _ else _); [|discriminate]. inversion Hu; subst. split; auto. now destruct (_ && _). }
  destruct c as [m| | | |i l|i m|i|i|i|i|i| |i| |i]; cbn [HoModel.step] in R; try discriminate.
  - destruct (t_shut (s_told s)); [inversion R; subst; auto|]. destruct (t_shut (s_told _)); inversion R; subst; auto.
  - destruct (s_torn s); inversion R; subst; auto. split; auto. clear. rewrite existsb_app. cbn. rewrite orb_false_r. induction (concat _); auto.
  - inversion R; subst; auto.
  - destruct (s_queue s) as [|[i l] q]; inversion R; subst; auto.
  - inversion R; subst; auto. split; auto. clear. rewrite existsb_app. cbn. rewrite orb_false_r. induction l; auto.
  - destruct (_ || _); [inversion R; subst; auto|]. destruct m; try (inversion R; subst; auto; fail).
    + destruct (set_error _); inversion R; subst; auto.
    + inversion R; subst. split; auto. now destruct (i_oc _).
  - destruct (t_shut (s_told s)); inversion R; subst; auto.
  - destruct (s_nc s); [discriminate|]. destruct (can_downstream_complete _); [destruct (set_complete _); [|discriminate]|]; inversion R; subst; auto.
  - eauto.
  - destruct (existsb _ _); [inversion R; subst; auto|eauto].
  - inversion R; subst; auto. split; auto. now destruct (_ && _).
  - inversion R; subst; auto. split; auto. now destruct (_ && _).
  - destruct (i_closed _); [|destruct (nth_error _ _)]; inversion R; subst; auto.
  - destruct (_ && _); inversion R; subst; auto. split; auto. cbn. destruct (s_cur s); auto.
Qed.
Lemma step_Bz : forall c K s s' K1, tidy (c :: K) -> Bz (c :: K) s -> step c s = Some (s', K1) -> Bz (K1 ++ K) s'.
Proof.
  intros c K s s' K1 T B R i Hi. destruct (is_free c) eqn:Ec.
  - destruct c; try discriminate. cbn [HoModel.step] in R. inversion R; subst. destruct T as [_ T]. subst K. destruct Hi.
  - destruct (step_free _ _ R Ec) as [-> Q]. apply B. right. apply in_app_or in Hi. destruct Hi as [Hi|Hi]; auto. exfalso.
    assert (existsb is_free K1 = true) by (apply existsb_exists; eexists; split; eauto). congruence.
Qed.

Lemma step_S3 : forall c K s s' K1, I1 (c :: K) s -> Bz (c :: K) s -> S3 (c :: K) s -> step c s = Some (s', K1) -> S3 (K1 ++ K) s'.
Proof.
  intros c K s s' K1 H B S R. destruct (I1_top H) as (T1 & T2 & T3). assert (M := j_mir H).
  assert (Ht := torn_now S).
  assert (Same0 : same s s) by (repeat split).
  destruct c as [m| | | |i l|i m|i|i|i|i|i| |i| |i]; cbn [HoModel.step] in R.
  - (* KTell *) change (t_shut (s_told s)) with (shut s) in R. specialize (Ht ltac:(discriminate)).
    destruct (shut s) eqn:Es.
    + inversion R; subst. apply (@S3_alien (KTell m) K [] s' s'); auto; discriminate.
    + set (s1 := log (with_told s (tell down m (s_told s))) (TOut m)) in *.
      assert (Es' : s' = s1 /\ K1 = (if shut s1 then [KTear] else [])) by (unfold shut; inversion R; auto).
      destruct Es' as [-> ->]. clear R.
      assert (Hlate : always (none_late down) (s_tr s1)) by (apply always_snoc; [apply (r_late S)|exact I]).
      assert (Hto : s_torn s = false) by (destruct (s_torn s) eqn:Q; auto; apply (j_torn H) in Q; congruence).
      set (K1 := if shut s1 then [KTear] else []).
      assert (HK1 : forallb alien K1 = true) by (unfold K1; now destruct (shut s1)).
      assert (Hf : forall i, first i (K1 ++ K) = first i (KTell m :: K)) by (intros i; rewrite first_alien; auto).
      assert (Hl : forall i, i_closed (s_inner s i) = false -> loose i (K1 ++ K) = false).
      { intros i Hi. rewrite (loose_first i _ K) by (now apply first_alien). eapply tight_alien; eauto. }
      constructor; auto.
      * apply tidy_alien; auto. apply (r_tidy S).
      * intros i x Hx Ha. apply in_app_or in Hx. destruct Hx as [Hx|Hx]; [|eapply (r_sub S); eauto; now right].
        rewrite forallb_forall in HK1. rewrite (alien_about i x) in Ha; [discriminate|auto].
      * intros i Hi Q. rewrite Hl in Q by auto. discriminate.
      * intros i Hi. destruct (r_busy S i Hi) as [Z|Z]; [discriminate|]. apply in_or_app. auto.
      * intros l i. rewrite Hf. apply (r_slab S).
      * intros Hs i. rewrite Hf. apply (r_pre S Es).
      * intros Hs i Hi Hci. rewrite Hf. intros Hfi. left. split; auto. apply (r_pre S Es i); auto.
      * intros Hs _. unfold K1. rewrite Hs. exists K. reflexivity.
      * apply (r_torn S).
      * intros Hs. rewrite nadv_app, pend_app, T2, T3. unfold K1. now destruct (shut s1).
  - (* KTear *) destruct (s_torn s) eqn:Eto.
    + inversion R; subst. apply (@S3_alien KTear K [] s' s'); auto; discriminate.
    + inversion R; subst. clear R. set (K1 := map _ _ ++ _). set (s' := with_slab _ _).
      assert (Hs : shut s = true) by (destruct (j_end H KTear (or_introl eq_refl) eq_refl); auto; discriminate).
      assert (HK1 : forallb alien K1 = true) by (unfold K1; rewrite forallb_app; cbn [s_slab with_torn]; induction (concat (s_slab s)); auto).
      assert (Hf : forall i, first i (K1 ++ K) = first i (KTear :: K)) by (intros i; rewrite first_alien; auto).
      assert (Hl : forall i, i_closed (s_inner s i) = false -> loose i (K1 ++ K) = false).
      { intros i Hi. rewrite (loose_first i _ K) by (now apply first_alien). eapply tight_alien; eauto. }
      constructor; auto.
      * apply tidy_alien; auto. apply (r_tidy S).
      * intros i x Hx Ha. apply in_app_or in Hx. destruct Hx as [Hx|Hx]; [|eapply (r_sub S); eauto; now right].
        rewrite forallb_forall in HK1. rewrite (alien_about i x) in Ha; [discriminate|auto].
      * intros i Hi Q. rewrite Hl in Q by auto. discriminate.
      * intros i Hi. destruct (r_busy S i Hi) as [Z|Z]; [discriminate|]. apply in_or_app. auto.
      * intros l i [].
      * intros Q. change (shut s = false) in Q. congruence.
      * intros _ i Hi Hci. rewrite Hf. intros Hfi. right. apply in_or_app.
        destruct (r_post S Hs i Hi Hci Hfi) as [[_ (l & Z1 & Z2)]|[Z|Z]]; auto; [|discriminate].
        left. unfold K1. apply in_or_app. left. apply in_map. apply in_concat. eauto.
      * discriminate.
      * intros _. rewrite nadv_app, pend_app, T2, T3.
        replace (nadv K1) with 0; [replace (pend K1) with (@nil nat); auto|].
        -- unfold K1. rewrite pend_app, app_nil_r. induction (concat _); auto.
        -- unfold K1. rewrite nadv_app, Nat.add_0_r. induction (concat _); auto.
      * apply (r_late S).
  - inversion R; subst. apply (@S3_alien KTearEnd K [] s); auto; try discriminate; try (now repeat split); try (apply Ht; discriminate).
  - (* KAdvance *) assert (Es : shut s = false) by (destruct (shut s) eqn:Q; auto; destruct (r_still S Q); discriminate).
    destruct (s_queue s) as [|[i l] q]; inversion R; subst.
    + apply (@S3_alien KAdvance K [] s' s'); auto; congruence.
    + apply (@S3_alien KAdvance K [KCreate i l] s); auto; try congruence; now repeat split.
  - (* KCreate *) assert (Es : shut s = false) by (destruct (shut s) eqn:Q; auto; destruct (r_still S Q); discriminate).
    inversion R; subst. clear R. set (K1 := map _ _ ++ _). set (s' := log _ _).
    assert (Hw : i < s_arrived s /\ s_inner s i = no_inner) by (apply (j_wait H); rewrite pend_cons; now left). destruct Hw as [_ Hno].
    assert (HnK : forall c, In c K -> about i c = false).
    { intros c Hc. destruct (about i c) eqn:Q; auto. pose proof (r_sub S i c (or_intror Hc) Q) as Z. now rewrite Hno in Z. }
    assert (HfK := first_none _ _ HnK).
    assert (Hin : forall j, j <> i -> s_inner s' j = s_inner s j) by (intros j Hj; unfold s'; cbn; apply Nat.eqb_neq in Hj; now rewrite Hj).
    assert (HK1 : forall x, In x K1 -> about i x = true).
    { intros x Hx. unfold K1 in Hx. apply in_app_or in Hx. destruct Hx as [Hx|[<-|[]]]; [|apply Nat.eqb_refl]. apply in_map_iff in Hx. destruct Hx as (y & <- & _). apply Nat.eqb_refl. }
    assert (Hf : forall j, j <> i -> first j (K1 ++ K) = first j K).
    { intros j Hj. clear - HK1 Hj. induction K1 as [|x K1 IH]; auto. cbn. unfold first at 1. cbn. destruct (about j x) eqn:Q.
      - exfalso. apply Hj. eapply about_other; eauto. apply HK1. now left.
      - apply IH. intros z Hz. apply HK1. now right. }
    assert (Hfi : exists x K', K1 ++ K = x :: K' /\ about i x = true).
    { destruct (K1 ++ K) as [|x K'] eqn:Q; [destruct l; discriminate|]. exists x, K'. split; auto. apply HK1.
      unfold K1 in *. destruct l; cbn in Q; injection Q as <- _; now left. }
    constructor; auto.
    + assert (HT : forall l, tidy ((map (KCall i) l ++ [KSubscribed i]) ++ K)).
      { induction l0 as [|m l0 IH]; cbn; [split; auto; apply (r_tidy S)|]. split; auto. split; [intros Q|]; clear - l0; destruct l0; unfold first; cbn; rewrite Nat.eqb_refl; auto; discriminate. }
      apply HT.
    + intros j x Hx Ha. destruct (Nat.eq_dec j i) as [->|Hj]; [unfold s'; cbn; now rewrite Nat.eqb_refl|]. rewrite Hin by auto.
      apply in_app_or in Hx. destruct Hx as [Hx|Hx]; [|eapply (r_sub S); eauto; now right]. destruct Hj. eapply about_other; eauto.
    + intros j Hj Q. destruct (Nat.eq_dec j i) as [->|Hji].
      * destruct Hfi as (x & K' & -> & Hx). exact Hx.
      * rewrite Hin in Hj by auto. rewrite (loose_first j _ K) in Q by auto. rewrite (@tight_alien (KCreate i l) K s) in Q; auto. discriminate.
    + intros Q. change (shut s = true) in Q. congruence.
    + intros j Hj. destruct (r_busy S j Hj) as [Z|Z]; [discriminate|]. apply in_or_app. auto.
    + intros l' j Hl' Hj Hcj. change (s_slab s') with (s_slab s ++ [[]]) in Hl'. apply in_app_or in Hl'. destruct Hl' as [Hl'|[<-|[]]]; [|destruct Hj].
      assert (Hji : j <> i). { intros ->. pose proof (j_slabids H _ _ Hl' Hj) as Z. now rewrite Hno in Z. }
      rewrite Hf by auto. rewrite Hin in Hcj by auto. apply (r_slab S l' j); auto.
    + intros _ j Hsj Hcj. destruct (Nat.eq_dec j i) as [->|Hji].
      * destruct Hfi as (x & K' & -> & Hx). unfold first. cbn. rewrite Hx. intros [Z|Z]; [discriminate|].
        exfalso. pose proof (r_busy S _ Z) as Z'. destruct Z' as [Z'|Z']; [discriminate|]. apply HnK in Z'. cbn in Z'. rewrite Nat.eqb_refl in Z'. discriminate.
      * rewrite Hf by auto. rewrite Hin in Hcj, Hsj by auto. intros Hz. destruct (r_pre S Es j Hsj Hcj Hz) as (l' & Z1 & Z2). exists l'. split; auto.
        change (s_slab s') with (s_slab s ++ [[]]). apply in_or_app. auto.
    + intros Q. change (shut s = true) in Q. congruence.
    + intros Q. change (shut s = true) in Q. congruence.
    + intros Q. change (s_torn s = true) in Q. apply (j_torn H) in Q. congruence.
    + intros Q. change (shut s = true) in Q. congruence.
    + apply always_snoc; [apply (r_late S)|]. cbn. now apply (m_shut M).
  - (* KCall *) destruct (i_closed (s_inner s i)) eqn:Ec; cbn [orb] in R.
    + inversion R; subst. clear R. cbn [app].
      assert (Hf : forall j, j <> i -> first j (KCall i m :: K) = first j K).
      { intros j Hj. unfold first. cbn. replace (i =? j) with false; auto. symmetry. apply Nat.eqb_neq. auto. }
      assert (Hne : forall j, i_closed (s_inner s' j) = false -> j <> i) by (intros j Hj ->; congruence).
      assert (Hlo : forall j, i_closed (s_inner s' j) = false -> loose j K = false).
      { intros j Hj. pose proof (r_head S j Hj) as Z. unfold headed in Z. cbn [hd_about about] in Z. rewrite (loose_first j _ K) in Z by auto.
        destruct (loose j K); auto. specialize (Z eq_refl). apply Nat.eqb_eq in Z. destruct (Hne j Hj). auto. }
      specialize (Ht ltac:(discriminate)). constructor; auto.
      * apply (r_tidy S).
      * intros j x Hx. apply (r_sub S). now right.
      * intros j Hj Q. rewrite Hlo in Q; auto. discriminate.
      * intros j Hj. destruct (r_busy S j Hj) as [Z|Z]; [discriminate|auto].
      * intros l j Hl Hj Hcj. rewrite <- Hf by auto. apply (r_slab S l); auto.
      * intros Hs j Hsj Hcj. rewrite <- Hf by auto. apply (r_pre S); auto.
      * intros Hs j Hsj Hcj. rewrite <- Hf by auto. intros Hfj. destruct (r_post S Hs j Hsj Hcj Hfj) as [Z|[Z|Z]]; auto. discriminate.
      * intros Hs Q. rewrite Ht in Q; auto. discriminate.
      * apply (r_torn S).
      * apply (r_late S).
    + assert (Es : i_sub (s_inner s i) = true) by (apply (r_sub S i (KCall i m) (or_introl eq_refl)); cbn; apply Nat.eqb_refl).
      rewrite Es in R. cbn [negb] in R. destruct (r_tidy S) as [HT1 HT2]. cbn in HT2.
      assert (Hopen : shut s = false).
      { destruct (shut s) eqn:Q; auto. pose proof (r_tight S Q i Ec) as Z. unfold loose, first in Z. cbn in Z. rewrite Nat.eqb_refl in Z. discriminate. }
      destruct m as [a|e| |].
      * inversion R; subst. apply (@S3_call (KCall i (Nxt a)) i K [KTell (Nxt a); KAfterNext i] s); eauto; try congruence.
        -- right. exists (Nxt a). reflexivity.
        -- cbn. auto.
        -- cbn. intros x [<-|[<-|[]]]; cbn; auto. right. apply Nat.eqb_refl.
        -- exists (KAfterNext i). unfold first. cbn. rewrite Nat.eqb_refl. repeat split; auto; discriminate.
      * destruct (set_error _); [|discriminate]. inversion R; subst. apply (@S3_call (KCall i (Err e)) i K [KTell (Err e); KUnsub i] s); eauto; try congruence.
        -- right. exists (Err e). reflexivity.
        -- cbn. auto.
        -- cbn. intros x [<-|[<-|[]]]; cbn; auto. right. apply Nat.eqb_refl.
        -- exists (KUnsub i). unfold first. cbn. rewrite Nat.eqb_refl. repeat split; auto; discriminate.
      * inversion R; subst. set (b := i_oc _). apply (@S3_call (KCall i Cmp) i K _ s); eauto; try congruence.
        -- intros j. cbn. destruct (j =? i) eqn:Ej; auto. apply Nat.eqb_eq in Ej. subst. auto.
        -- right. exists Cmp. reflexivity.
        -- destruct b; cbn; auto.
        -- intros x Hx. apply in_app_or in Hx. destruct Hx as [Hx|[<-|[<-|[]]]]; cbn; auto; [|right; apply Nat.eqb_refl]. destruct b; [|destruct Hx]. destruct Hx as [<-|[]]. auto.
        -- exists (KUnsub i). unfold first. destruct b; cbn; rewrite Nat.eqb_refl; repeat split; auto; discriminate.
      * inversion R; subst. apply (@S3_call (KCall i Uns) i K [KUnsub i] s); eauto; try congruence.
        -- right. exists Uns. reflexivity.
        -- cbn. auto.
        -- cbn. intros x [<-|[]]; cbn; auto. right. apply Nat.eqb_refl.
        -- exists (KUnsub i). unfold first. cbn. rewrite Nat.eqb_refl. repeat split; auto; discriminate.
  - (* KAfterNext *) change (t_shut (s_told s)) with (shut s) in R. destruct (r_tidy S) as [HT1 HT2]. cbn in HT2. destruct (shut s) eqn:Es.
    + inversion R; subst. apply (@S3_call (KAfterNext i) i K [KUnsub i] s); eauto; try congruence.
      * cbn. auto.
      * cbn. intros x [<-|[]]; cbn; auto. right. apply Nat.eqb_refl.
      * exists (KUnsub i). unfold first. cbn. rewrite Nat.eqb_refl. repeat split; auto; discriminate.

    + inversion R; subst. clear R. cbn [app].
      assert (Hf : forall j, j <> i -> first j (KAfterNext i :: K) = first j K).
      { intros j Hj. unfold first. cbn. replace (i =? j) with false; auto. symmetry. apply Nat.eqb_neq. auto. }
      constructor; auto; try congruence.
      * intros j x Hx. apply (r_sub S). now right.
      * intros j Hj. destruct (Nat.eq_dec j i) as [->|Hji]; [apply HT2|]. intros Q. pose proof (r_head S j Hj) as Z. unfold headed in Z. cbn [hd_about about] in Z.
        rewrite (loose_first j _ K) in Z by auto. specialize (Z Q). apply Nat.eqb_eq in Z. now destruct Hji.
      * intros j Hj. destruct (r_busy S j Hj) as [Z|Z]; [discriminate|auto].
      * intros l j Hl Hj Hcj. destruct (Nat.eq_dec j i) as [->|Hji]; [|rewrite <- Hf by auto; apply (r_slab S l); auto].
        destruct (r_slab S l i Hl Hj Hcj) as [Z|Z]; auto. unfold first in Z. cbn in Z. rewrite Nat.eqb_refl in Z. discriminate.
      * intros _ j Hsj Hcj Hz. destruct (Nat.eq_dec j i) as [->|Hji]; [|rewrite <- Hf in Hz by auto; apply (r_pre S Es); auto].
        apply (r_pre S Es); auto. right. destruct Hz as [Hz|Hz]; auto. now destruct HT2.
      * apply (r_torn S).
      * apply (r_late S).
  - (* KInnerCompleted *) specialize (Ht ltac:(discriminate)). destruct (s_nc s); [discriminate|]. destruct (can_downstream_complete _); [destruct (set_complete _); [|discriminate]|]; inversion R; subst.
    + apply (@S3_alien (KInnerCompleted i) K [KTell Cmp] s); auto; try discriminate; now repeat split.
    + apply (@S3_alien (KInnerCompleted i) K [] s); auto; try discriminate; now repeat split.
  - eapply S3_unsub; eauto.
  - (* KUnsubFrom *) specialize (Ht ltac:(discriminate)). destruct (existsb (Nat.eqb i) (s_busy s)) eqn:Eb.
    + inversion R; subst. apply existsb_exists in Eb. destruct Eb as (j & Hj & Q). apply Nat.eqb_eq in Q. subst j.
      apply (@S3_alien (KUnsubFrom i) K [] s' s'); auto. intros j [= <-]. auto.
    + eapply S3_unsub; eauto. right. split; auto. intros Q. assert (existsb (Nat.eqb i) (s_busy s) = true) by (apply existsb_exists; exists i; split; auto; apply Nat.eqb_refl). congruence.
  - (* KOnUnsub *) specialize (Ht ltac:(discriminate)). inversion R; subst. set (b := (_ && _)%bool).
    apply (@S3_alien (KOnUnsub i) K _ s' s'); auto; try discriminate; [now destruct b|].
    intros Hs. replace b with false; auto. symmetry. unfold b. rewrite (r_torn S) by auto. cbn [length]. replace (i_key _ <? 0) with false by reflexivity.
    replace (0 =? L - 1) with false; auto. symmetry. apply Nat.eqb_neq. lia.
  - specialize (Ht ltac:(discriminate)). inversion R; subst. set (b := (_ && _)%bool).
    apply (@S3_alien KOnUnsub2 K _ s' s'); auto; try discriminate; [now destruct b|]. intros _. now destruct b.
  - (* KSubscribed *) specialize (Ht ltac:(discriminate)). destruct (r_tidy S) as [HT1 HT2]. cbn in HT2.
    assert (Hf : forall j, j <> i -> first j (KSubscribed i :: K) = first j K).
    { intros j Hj. unfold first. cbn. replace (i =? j) with false; auto. symmetry. apply Nat.eqb_neq. auto. }
    assert (Hlo : forall j, i_closed (s_inner s j) = false -> loose j K = false).
    { intros j Hj. destruct (Nat.eq_dec j i) as [->|Hji]; [unfold loose; now rewrite HT2|].
      pose proof (r_head S j Hj) as Z. unfold headed in Z. cbn [hd_about about] in Z. rewrite (loose_first j _ K) in Z by auto.
      destruct (loose j K); auto. specialize (Z eq_refl). apply Nat.eqb_eq in Z. now destruct Hji. }
    assert (Hbu : forall j, In j (s_busy s) -> In (KFree j) K) by (intros j Hj; destruct (r_busy S j Hj) as [Z|Z]; [discriminate|auto]).
    destruct (i_closed (s_inner s i)) eqn:Ec; [|destruct (nth_error (s_slab s) (i_key (s_inner s i))) as [l|] eqn:En].
    + inversion R; subst. clear R. cbn [app]. assert (Hne : forall j, i_closed (s_inner s' j) = false -> j <> i) by (intros j Hj ->; congruence).
      constructor; auto.
      * intros j x Hx. apply (r_sub S). now right.
      * intros j Hj Q. rewrite Hlo in Q; auto. discriminate.
      * intros l j Hl Hj Hcj. rewrite <- Hf by auto. apply (r_slab S l); auto.
      * intros Hs j Hsj Hcj. rewrite <- Hf by auto. apply (r_pre S); auto.
      * intros Hs j Hsj Hcj. rewrite <- Hf by auto. intros Hfj. destruct (r_post S Hs j Hsj Hcj Hfj) as [Z|[Z|Z]]; auto. discriminate.
      * intros Hs Q. rewrite Ht in Q; auto. discriminate.
      * apply (r_torn S).
      * apply (r_late S).
    + assert (Es : shut s = false).
      { destruct (shut s) eqn:Q; auto. rewrite (r_torn S) in En by auto. destruct (i_key _); discriminate. }
      inversion R; subst. clear R. set (n := i_key (s_inner s i)) in *. set (s' := with_slab _ _). cbn [app].
      assert (Hslab : forall l' j, In l' (s_slab s') -> In j l' -> j = i \/ exists l0, In l0 (s_slab s) /\ In j l0).
      { intros l' j Hl' Hj. unfold s' in Hl'. cbn [s_slab with_slab] in Hl'. apply in_app_or in Hl'. destruct Hl' as [Hl'|[<-|Hl']].
        - right. exists l'. split; auto. rewrite <- (firstn_skipn n (s_slab s)). apply in_or_app. auto.
        - apply in_app_or in Hj. destruct Hj as [Hj|[<-|[]]]; auto. right. exists l. split; auto. eapply nth_error_In; eauto.
        - right. exists l'. split; auto. rewrite <- (firstn_skipn (Datatypes.S n) (s_slab s)). apply in_or_app. auto. }
      assert (Hslab' : forall l0 j, In l0 (s_slab s) -> In j l0 -> exists l', In l' (s_slab s') /\ In j l').
      { intros l0 j Hl0 Hj. unfold s'. cbn [s_slab with_slab]. destruct (@in_replace _ _ _ _ (l ++ [i]) En _ Hl0) as [Z| ->]; [exists l0; split; auto|].
        exists (l ++ [i]). split; [apply in_or_app; right; now left|]. apply in_or_app. auto. }
      constructor; auto.
      * intros j x Hx. apply (r_sub S). now right.
      * intros j Hj Q. rewrite Hlo in Q; auto. discriminate.
      * intros l' j Hl' Hj Hcj. destruct (Hslab l' j Hl' Hj) as [->|(l0 & Z1 & Z2)]; auto.
        destruct (Nat.eq_dec j i) as [->|Hji]; auto. rewrite <- Hf by auto. apply (r_slab S l0); auto.
      * intros _ j Hsj Hcj Hz. destruct (Nat.eq_dec j i) as [->|Hji].
        -- exists (l ++ [i]). split; [|apply in_or_app; right; now left]. unfold s'. cbn [s_slab with_slab]. apply in_or_app. right. now left.
        -- rewrite <- Hf in Hz by auto. destruct (r_pre S Es j Hsj Hcj Hz) as (l0 & Z1 & Z2). eauto.
      * intros Q. change (shut s = true) in Q. congruence.
      * intros Q. change (shut s = true) in Q. congruence.
      * intros Q. change (s_torn s = true) in Q. apply (j_torn H) in Q. congruence.
      * apply (r_late S).
    + inversion R; subst.
      assert (Hs : shut s' = true).
      { destruct (shut s') eqn:Q; auto. exfalso. assert (Hto : s_torn s' = false) by (destruct (s_torn s') eqn:Z; auto; apply (j_torn H) in Z; congruence).
        destruct (j_slab H Hto) as [_ Z]. apply nth_error_None in En.
        assert (Hsi := r_sub S i (KSubscribed i) (or_introl eq_refl)). cbn in Hsi. rewrite Nat.eqb_refl in Hsi. specialize (Z i (Hsi eq_refl)). lia. }
      apply (@S3_call (KSubscribed i) i K [KUnsub i] s'); eauto.
      * cbn. auto.
      * cbn. intros x [<-|[]]; cbn; auto. right. apply Nat.eqb_refl.
      * exists (KUnsub i). unfold first. cbn. rewrite Nat.eqb_refl. repeat split; auto; discriminate.

  - pose proof (j_fr H) as F. apply Forall_inv in F. destruct F.
  - (* KFree *) inversion R; subst. clear R. specialize (Ht ltac:(discriminate)). destruct (r_tidy S) as [_ HT2]. cbn in HT2. subst K. cbn [app].
    assert (Hf : forall j, j <> i -> first j [KFree i] = None).
    { intros j Hj. unfold first. cbn. replace (i =? j) with false; auto. symmetry. apply Nat.eqb_neq. auto. }
    assert (Hb : forall j, In j (s_busy s) -> j = i) by (intros j Hj; destruct (r_busy S j Hj) as [Z|[]]; congruence).
    constructor; cbn [with_busy s_inner s_busy s_slab s_torn s_tr]; auto.
    + exact I.
    + intros j _ Q. discriminate.
    + intros j Hj. apply filter_In in Hj. destruct Hj as [Hj Q]. rewrite (Hb j Hj), Nat.eqb_refl in Q. discriminate.
    + intros Hs j Hsj Hcj Hz. apply (r_pre S); auto. destruct (Nat.eq_dec j i) as [->|Hji]; auto. right. apply B. now left.
    + intros Hs j Hsj Hcj _. exfalso. destruct (Nat.eq_dec j i) as [->|Hji].
      * pose proof (r_tight S Hs i Hcj) as Z. unfold loose, first in Z. cbn in Z. rewrite Nat.eqb_refl in Z. discriminate.
      * destruct (r_post S Hs j Hsj Hcj (Hf j Hji)) as [[Z _]|[Z|[]]]; [rewrite Ht in Z; auto; discriminate|discriminate].
    + intros Hs Q. rewrite Ht in Q; auto. discriminate.
    + apply (r_torn S).
    + apply (r_late S).
Qed.

(** *** The whole. *)
Definition I3 K s : Prop := I1 K s /\ Bz K s /\ S3 K s.
Lemma step_I3 : forall c K s s' K1, I3 (c :: K) s -> step c s = Some (s', K1) -> I3 (K1 ++ K) s'.
Proof.
  intros c K s s' K1 (H & B & S) R. split; [|split].
  - eapply step_I1; eauto. lia.
  - eapply step_Bz; eauto. apply (r_tidy S).
  - eapply step_S3; eauto.
Qed.

Lemma S3_nil : forall s s' K1, S3 [] s -> forallb alien K1 = true ->
  s_busy s' = s_busy s -> s_slab s' = s_slab s -> s_torn s' = s_torn s -> shut s' = shut s -> s_inner s' = s_inner s ->
  always (none_late down) (s_tr s') -> shut s = false -> S3 K1 s'.
Proof.
  intros s s' K1 S HK E1 E2 E3 E4 E5 Hl Hs.
  assert (Hf : forall i, first i K1 = None).
  { intros i. apply first_none. intros c Hc. apply alien_about. rewrite forallb_forall in HK. auto. }
  assert (Hb : forall i, ~ In i (s_busy s)) by (intros i Hi; destruct (r_busy S i Hi)).
  constructor; rewrite ?E1, ?E2, ?E3, ?E4, ?E5; auto; try congruence.
  - rewrite <- (app_nil_r K1). apply tidy_alien; auto. exact I.
  - intros i c Hc Ha. rewrite alien_about in Ha; [discriminate|]. rewrite forallb_forall in HK. auto.
  - intros i _ Q. unfold loose in Q. rewrite Hf in Q. discriminate.
  - intros i Hi. destruct (Hb i Hi).
  - intros _ i Hi Hc _. apply (r_pre S Hs); auto.
  - apply (r_torn S).
Qed.

Lemma perform_I3 : forall a s s' K, I3 [] s -> perform (Concurrent L) a s = Some (s', K) -> I3 K s'.
Proof.
  intros a s s' K (H & B & S) R. assert (H' : I1 K s') by (eapply perform_I1; eauto; lia).
  assert (Late : forall e, match e with TArrive _ | TUp _ => True | _ => False end -> always (none_late down) (s_tr s ++ [e])).
  { intros e He. apply always_snoc; [apply (r_late S)|]. destruct e; try contradiction; exact I. }
  assert (I0 : I3 [] s) by (split; [|split]; auto).
  assert (Sh : is_torn (Concurrent L) s = false -> shut s = false) by (cbn; intros Q; apply orb_false_iff in Q; tauto).
  destruct a as [l|e| | |i c]; cbn [perform] in R.
  - destruct (is_torn (Concurrent L) s) eqn:Et; [inversion R; subst; auto|]. specialize (Sh eq_refl).
    destruct (_ <? _); inversion R; subst; clear R; split; auto; split.
    + intros j [Q|[]]. discriminate.
    + apply (@S3_nil s); auto. apply Late. exact I.
    + intros j [].
    + apply (@S3_nil s); auto. apply Late. exact I.
  - destruct (is_torn (Concurrent L) s) eqn:Et; [inversion R; subst; auto|]. specialize (Sh eq_refl).
    destruct (set_error _); [|discriminate]. inversion R; subst; clear R; split; auto; split.
    + intros j [Q|[Q|[]]]; discriminate.
    + apply (@S3_nil s); auto. apply Late. exact I.
  - destruct (is_torn (Concurrent L) s) eqn:Et; [inversion R; subst; auto|]. specialize (Sh eq_refl).
    destruct (set_complete _); [|discriminate]. destruct (set_unsubscribe _); [|discriminate]. destruct (can_downstream_complete _); inversion R; subst; clear R; split; auto; split.
    + intros j [Q|[Q|[]]]; discriminate.
    + apply (@S3_nil s); auto. apply Late. exact I.
    + intros j [].
    + apply (@S3_nil s); auto. apply Late. exact I.
  - destruct (is_torn (Concurrent L) s) eqn:Et; [inversion R; subst; auto|]. specialize (Sh eq_refl).
    unfold unsubscribe in R. replace (is_torn (Concurrent L) (log s (TUp Uns))) with false in R by (symmetry; exact Et). inversion R; subst; clear R; split; auto; split.
    + intros j [Q|[]]; discriminate.
    + apply (@S3_nil s); auto. apply Late. exact I.
  - destruct (i_closed (s_inner s i)) eqn:Ec; [inversion R; subst; auto|]. destruct (i_sub (s_inner s i)) eqn:Es; [|inversion R; subst; auto].
    cbn [orb negb] in R. inversion R; subst; clear R. split; auto.
    assert (Hb : forall i, ~ In i (s_busy s)) by (intros j Hj; destruct (r_busy S j Hj)).
    assert (Hs : shut s = false).
    { destruct (shut s) eqn:Q; auto. destruct (r_post S Q i Es Ec eq_refl) as [[Z _]|[]]. destruct (r_tear S Q Z). discriminate. }
    assert (Hne : forall j, first j [KCall i c; KFree i] = None -> j <> i).
    { intros j Q ->. unfold first in Q. cbn in Q. rewrite Nat.eqb_refl in Q. discriminate. }
    assert (Hf : forall j, j <> i -> first j [KCall i c; KFree i] = None).
    { intros j Hj. unfold first. cbn. replace (i =? j) with false; auto. symmetry. apply Nat.eqb_neq. auto. }
    split.
    + intros j [Q|[Q|[]]]; [discriminate|]. injection Q as ->. now left.
    + constructor; cbn [with_busy s_inner s_busy s_slab s_torn s_tr]; try (change (shut (with_busy s (i :: s_busy s))) with (shut s); congruence).
      * cbn. repeat split; auto; try (intros _; cbn; apply Nat.eqb_refl). unfold first. cbn. rewrite Nat.eqb_refl. discriminate.
      * intros j x [<-|[<-|[]]]; cbn; intros Q; apply Nat.eqb_eq in Q; now subst.
      * intros j _ Q. cbn. destruct (i =? j) eqn:Ej; auto. apply Nat.eqb_neq in Ej. unfold loose in Q. rewrite Hf in Q by auto. discriminate.
      * intros j [<-|Hj]; [cbn; auto|]. destruct (Hb j Hj).
      * intros l j _ _ _. destruct (Nat.eq_dec j i) as [->|Hj]; [right; now left|]. left. auto.
      * intros _ j Hsj Hcj _. apply (r_pre S Hs); auto.
      * apply (r_torn S).
      * apply (r_late S).
Qed.

Lemma init_I3 : I3 [] init.
Proof.
  split; [apply init_I1; lia|]. split; [intros i []|]. constructor; cbn; auto; try discriminate; try contradiction.
  apply always_nil.
Qed.
Lemma flatten_I3 : forall fuel h s, flatten down (Concurrent L) fuel h init = Fine s -> I3 [] s.
Proof.
  intros fuel h s R. eapply (@flatten_inv A E down (Concurrent L) (fun _ _ => True) I3); eauto using init_I3.
  - apply step_I3.
  - intros a s0 s1 K1 H _ Hp. eapply perform_I3; eauto.
Qed.

Lemma concurrent_released : forall fuel h s, flatten down (Concurrent L) fuel h init = Fine s -> released down (s_tr s).
Proof.
  intros fuel h s R Ho i Hi. destruct (flatten_I3 _ _ R) as (H & _ & S). assert (M := j_mir H). rewrite <- (m_sub M) in Hi. rewrite <- (m_end M).
  destruct (i_closed (s_inner s i)) eqn:Q; auto. exfalso.
  assert (Hs : shut s = true) by (destruct (shut s) eqn:Z; auto; destruct Ho; now apply (m_shut M)).
  destruct (r_post S Hs i Hi Q eq_refl) as [[Z _]|[]]. destruct (r_tear S Hs Z). discriminate.
Qed.
Lemma concurrent_none_late : forall fuel h s, flatten down (Concurrent L) fuel h init = Fine s -> always (none_late down) (s_tr s).
Proof. intros fuel h s R. apply (flatten_I3 _ _ R). Qed.

(** *** No panic. *)
Lemma num_pos : forall (f : inner -> bool) i s, i < s_arrived s -> f (s_inner s i) = true -> 0 < num f s.
Proof. intros f i s Hi Hf. now apply (@cnt_pos _ _ i). Qed.
Lemma unsub_fine : forall c i K s, I1 (c :: K) s -> i_sub (s_inner s i) = true -> do_unsub i s <> None.
Proof.
  intros c i K s H Hi. unfold do_unsub. destruct (i_closed (s_inner s i)) eqn:Ec; [discriminate|].
  assert (Hlt := j_sub H _ Hi).
  assert (0 < num ope s) by (apply (@num_pos _ i); auto; unfold ope; now rewrite Hi, Ec).
  pose proof (j_nu H). destruct (s_nu s) as [|nu]; [lia|]. cbn [minus_one]. destruct (i_completed (s_inner s i)) eqn:Q; [discriminate|].
  assert (0 < num liv s) by (apply (@num_pos _ i); auto; unfold liv; now rewrite Hi, Ec, Q).
  pose proof (j_nc H). destruct (s_nc s) as [|nc]; [lia|]. discriminate.
Qed.
Lemma step_fine : forall c K s, I3 (c :: K) s -> step c s <> None.
Proof.
  intros c K s (H & B & S). assert (F := j_fr H). apply Forall_inv in F.
  destruct c as [m| | | |i l|i m|i|i|i|i|i| |i| |i]; cbn [HoModel.step]; cbn [okf] in F; try discriminate.
  - destruct (t_shut _); discriminate.
  - destruct (s_torn s); discriminate.
  - destruct (s_queue s) as [|[i l] q]; discriminate.
  - destruct (i_closed (s_inner s i)) eqn:Ec; [discriminate|]. destruct (i_sub (s_inner s i)) eqn:Es; [|discriminate]. cbn [orb negb].
    destruct m as [a|e| |]; try discriminate.
    assert (Hopen : shut s = false).
    { destruct (shut s) eqn:Q; auto. pose proof (r_tight S Q i Ec) as Z. unfold loose, first in Z. cbn in Z. rewrite Nat.eqb_refl in Z. discriminate. }
    assert (Dn : is_closed (s_down s) = false) by (destruct (is_closed (s_down s)) eqn:Q; auto; destruct (j_down H Q); [congruence|discriminate]).
    unfold set_error. change (s_down (log s (TIn i (Err e)))) with (s_down s). rewrite Dn. discriminate.
  - destruct (t_shut _); discriminate.
  - pose proof (j_nc H) as Hn. rewrite nic_cons in Hn. cbn [is_ic] in Hn. destruct (s_nc s) as [|nc]; [lia|].
    destruct (can_downstream_complete _) eqn:Ed; [|discriminate]. unfold can_downstream_complete in Ed. rewrite !andb_true_iff in Ed. destruct Ed as [_ Ed]. apply negb_true_iff in Ed.
    unfold set_complete. rewrite Ed. discriminate.
  - eapply unsub_fine; eauto.
  - destruct (existsb _ _); [discriminate|]. eapply unsub_fine; eauto.
  - destruct (i_closed _); [discriminate|]. destruct (nth_error _ _); discriminate.
  - destruct F.
Qed.
Lemma step_up : forall c s s' K1, step c s = Some (s', K1) -> outer_completed (s_tr s') = outer_completed (s_tr s).
Proof.
  intros c s s' K1 R. destruct (mute_tr _ _ _ _ R) as [-> |(e & -> & He)]; auto. rewrite outer_completed_snoc.
  destruct e; try contradiction; apply orb_false_r.
Qed.
Lemma flatten_fine : forall fuel h s closed gone, contract closed gone (outer h) -> I3 [] s ->
  (closed = false -> outer_completed (s_tr s) = false) -> flatten down (Concurrent L) fuel h s <> Panic.
Proof.
  intros fuel h. induction h as [|a h IH]; intros s closed gone C I0 Hc; cbn [flatten]; [discriminate|].
  assert (G : forall s' K closed' gone', perform (Concurrent L) a s = Some (s', K) -> contract closed' gone' (outer h) ->
    (closed' = false -> outer_completed (s_tr s') = false) ->
    match drive down (Concurrent L) fuel K s' with Fine s1 => flatten down (Concurrent L) fuel h s1 | r => r end <> Panic).
  { intros s' K closed' gone' R C' Hc'. pose proof (perform_I3 a I0 R) as I1'.
    destruct (drive down (Concurrent L) fuel K s') as [s1| |] eqn:Ed; [|exfalso|discriminate].
    - assert (Q : I3 [] s1 /\ outer_completed (s_tr s1) = outer_completed (s_tr s')).
      { refine (@drive_inv A E down (Concurrent L) (fun K x => I3 K x /\ outer_completed (s_tr x) = outer_completed (s_tr s')) _ fuel K s' s1 _ Ed); auto.
        intros c K0 x x' K1 [Z1 Z2] Rx. split; [eapply step_I3; eauto|]. rewrite <- Z2. eapply step_up; eauto. }
      destruct Q as [Q1 Q2]. apply (IH s1 closed' gone'); auto. intros Z. rewrite Q2. auto.
    - revert Ed. apply (@drive_fine A E down (Concurrent L) I3); auto; intros; [eapply step_fine; eauto|eapply step_I3; eauto]. }
  assert (Up : is_torn (Concurrent L) s = false -> closed = false -> is_closed (s_up s) = false).
  { intros Et Hcl. destruct I0 as (H & _ & _). cbn in Et. apply orb_false_iff in Et. destruct Et as [Et _].
    rewrite closed_split. specialize (Hc Hcl). rewrite <- (m_up (j_mir H)) in Hc. rewrite Hc. cbn.
    destruct (is_unsubscribed (s_up s)) eqn:Q1; [destruct (j_upuns H Q1); unfold shut in *; congruence|].
    destruct (is_errored (s_up s)) eqn:Q2; auto. destruct (j_uperr H Q2); unfold shut in *; [congruence|discriminate]. }
  destruct (perform (Concurrent L) a s) as [[s' K]|] eqn:R.
  - destruct a as [l|e| | |i c]; cbn [outer flat_map app] in C; cbn [contract] in C.
    + destruct C as [Hcl C]. apply (G s' K closed gone); auto. intros _. specialize (Hc Hcl). cbn [perform] in R.
      destruct (is_torn _ s); [inversion R; subst; auto|]. destruct (_ <? _); inversion R; subst; cbn; rewrite outer_completed_snoc, Hc; auto.
    + destruct C as [Hcl C]. apply (G s' K true gone); auto. discriminate.
    + destruct C as [Hcl C]. apply (G s' K true gone); auto. discriminate.
    + apply (G s' K true true); auto. discriminate.
    + apply (G s' K closed gone); auto. intros Hcl. cbn [perform] in R. destruct (_ || _); inversion R; subst; cbn; auto.
  - exfalso. destruct a as [l|e| | |i c]; cbn [outer flat_map app] in C; cbn [contract] in C; cbn [perform] in R.
    + destruct (is_torn _ s); [discriminate|]. destruct (_ <? _); discriminate.
    + destruct C as [Hcl C]. destruct (is_torn _ s) eqn:Et; [discriminate|]. specialize (Up eq_refl Hcl).
      unfold set_error in R. change (s_up (log s (TUp (Err e)))) with (s_up s) in R. rewrite Up in R. discriminate.
    + destruct C as [Hcl C]. destruct (is_torn _ s) eqn:Et; [discriminate|]. specialize (Up eq_refl Hcl).
      destruct (set_complete (s_up (log s (TUp Cmp)))) as [u|] eqn:Eu.
      * pose proof (sc_some _ Eu) as (_ & _ & _ & U). unfold set_unsubscribe in R. rewrite U in R. cbn in Up. rewrite closed_split in Up. apply orb_false_iff in Up. destruct Up as [Up _].
        cbn [s_up log] in R. rewrite Up in R. destruct (can_downstream_complete _); discriminate.
      * unfold set_complete in Eu. change (s_up (log s (TUp Cmp))) with (s_up s) in Eu. rewrite Up in Eu. discriminate.
    + destruct (is_torn _ s); discriminate.
    + destruct (_ || _); discriminate.
Qed.
Lemma concurrent_fine : forall fuel h, contract false false (outer h) -> flatten down (Concurrent L) fuel h init <> Panic.
Proof. intros fuel h C. apply (@flatten_fine fuel h init false false C); auto using init_I3. Qed.
End Conc3.
