(** Proofs about [HoModel]: what switch and exhaust subscribe to, and what they tell their
    destination when no inner observable unsubscribes its subscriber without completing it. *)
From Coq Require Import NArith.
From Verif Require Import Base SubscrModel LifeModel CombModel HoModel HoSpec HoProofs HoConc HoConc2 HoOne.
Set Implicit Arguments.

Section One2.
Variables A E : Type.
Variable down : list (ncall A E) -> bool.
Variable k : kind.
Hypothesis Hk : match k with Concurrent _ => False | _ => True end.
Notation st := (HoModel.st A E).
Notation cmd := (HoModel.cmd A E).
Notation ev := (HoModel.ev A E).
Notation step := (HoModel.step down k).
Notation W := (HoOne.W down k).
Implicit Types (s : st) (K : list cmd).
Arguments num : simpl never.
Arguments pend : simpl never.
Arguments nic : simpl never.

Ltac nope := intros; repeat match goal with H : In _ (_ :: _) |- _ => destruct H as [H|H]; [discriminate|] | H : In _ [] |- _ => destruct H end.
Lemma mute1 : forall c s s' K1, step c s = Some (s', K1) -> (s_tr s' = s_tr s /\ forall i l, c <> KCreate i l) \/
  exists e, s_tr s' = s_tr s ++ [e] /\
    match e with
    | TOut m => c = KTell m /\ shut s = false
    | TSub i => exists l, c = KCreate i l
    | TIn i m => c = KCall i m /\ i_closed (s_inner s i) = false /\ i_sub (s_inner s i) = true
    | TEnd i => (c = KUnsub i \/ c = KUnsubFrom i) /\ i_closed (s_inner s i) = false
    | _ => False
    end.
Proof.
  intros c s s' K1 R.
  assert (Un : forall i, do_unsub i s = Some (s', K1) -> s_tr s' = s_tr s \/ s_tr s' = s_tr s ++ [TEnd i] /\ i_closed (s_inner s i) = false).
  { intros i Hu. unfold do_unsub in Hu. destruct (i_closed (s_inner s i)) eqn:Q; [inversion Hu; subst; auto|].
    destruct (minus_one (s_nu s)); [|discriminate]. destruct (if i_completed _ then _ else _); [|discriminate]. inversion Hu; subst. right. auto. }
  destruct c as [m| | | |i l|i m|i|i|i|i|i| |i| |i]; cbn [HoModel.step] in R.
  - unfold shut. destruct (t_shut (s_told s)) eqn:Q; inversion R; subst; [left; split; [auto|discriminate]|]. right. exists (TOut m). auto.
  - left. split; [|discriminate]. destruct (s_torn s); [|destruct k]; inversion R; subst; auto.
  - left. split; [|discriminate]. inversion R; subst; auto.
  - left. split; [|discriminate]. destruct (s_queue s) as [|[i l] q]; inversion R; subst; auto.
  - right. exists (TSub i). destruct k; inversion R; subst; eauto.
  - destruct (i_closed (s_inner s i)) eqn:Ec; [left; split; [|discriminate]; inversion R; subst; auto|].
    destruct (i_sub (s_inner s i)) eqn:Es; [|left; split; [|discriminate]; inversion R; subst; auto]. cbn [orb negb] in R.
    right. exists (TIn i m). split; auto. destruct m; try (inversion R; subst; auto; fail). destruct (set_error _); inversion R; subst; auto.
  - left. split; [|discriminate]. destruct (t_shut (s_told s)); inversion R; subst; auto.
  - left. split; [|discriminate]. destruct (s_nc s); [discriminate|]. destruct (can_downstream_complete _); [destruct (set_complete _); [|discriminate]|]; inversion R; subst; auto.
  - destruct (Un _ R) as [Q|[Q1 Q2]]; [left; split; [auto|discriminate]|]. right. exists (TEnd i). auto.
  - destruct (existsb _ _); [left; split; [inversion R; subst; auto|discriminate]|]. destruct (Un _ R) as [Q|[Q1 Q2]]; [left; split; [auto|discriminate]|]. right. exists (TEnd i). auto.
  - left. split; [|discriminate]. destruct k; inversion R; subst; auto.
  - left. split; [|discriminate]. inversion R; subst; auto.
  - left. split; [|discriminate]. destruct (i_closed _); [|destruct k; try destruct (nth_error _ _)]; inversion R; subst; auto.
  - left. split; [|discriminate]. destruct (_ && _); inversion R; subst; auto.
  - left. split; [|discriminate]. inversion R; subst; auto.
Qed.

(** *** Each is subscribed to at once. *)
Definition wh (p : list ev) : Prop := k = Switch \/ running p = 0.
Definition settled (i : nat) (r : list ev) : Prop := exists r', r = TSub i :: r' \/ exists j, r = TEnd j :: TSub i :: r'.
Definition T K s : Prop := forall p i r, s_tr s = p ++ TArrive i :: r -> open down p -> wh p ->
  settled i r \/ (In i (pend K) /\ (r = [] \/ exists j, r = [TEnd j])).

Lemma settled_snoc : forall i r e, settled i r -> settled i (r ++ [e]).
Proof. intros i r e [r' [->|[j ->]]]; exists (r' ++ [e]); [left|right; exists j]; reflexivity. Qed.
Lemma snoc_split : forall (l p : list ev) e x r, l ++ [e] = p ++ x :: r -> (r = [] /\ l = p /\ e = x) \/ exists r', r = r' ++ [e] /\ l = p ++ x :: r'.
Proof.
  intros l p e x r H. destruct r as [|y r] using rev_ind.
  - apply app_inj_tail in H. left. tauto.
  - rewrite app_comm_cons, app_assoc in H. apply app_inj_tail in H. destruct H as [-> ->]. right. eauto.
Qed.

Lemma step_T : forall c K s s' K1, W (c :: K) s -> T (c :: K) s -> step c s = Some (s', K1) -> T (K1 ++ K) s'.
Proof.
  intros c K s s' K1 H HT R p i r Hp Ho Hw.
  assert (Keep : (forall i l, c <> KCreate i l) -> In i (pend (c :: K)) -> In i (pend (K1 ++ K))).
  { intros Hc Hi. rewrite pend_app. apply in_or_app. right. rewrite pend_cons in Hi. destruct c; auto. now destruct (Hc i0 l). }
  destruct (mute1 _ _ R) as [[Q Hc]|(e & Q & He)]; rewrite Q in Hp.
  - destruct (HT p i r Hp Ho Hw) as [Z|[Z1 Z2]]; auto.
  - apply snoc_split in Hp. destruct Hp as [(-> & <- & ->)|(r' & -> & Hp)]; [destruct He|].
    destruct (HT p i r' Hp Ho Hw) as [Z|[Z1 Z2]]; [left; now apply settled_snoc|].
    destruct e as [x|m|x|x m|x|m]; try contradiction.
    + destruct He as [l ->]. left. pose proof (w_pend H) as P. rewrite pend_cons in *. cbn in P, Z1. destruct (pend K); [|cbn in P; lia].
      destruct Z1 as [->|[]]. destruct Z2 as [->|[j ->]]; exists []; cbn; eauto.
    + destruct He as (-> & H1 & H2). destruct (w_create H i x Z1) as [_ [K' Z]]; [unfold ope; now rewrite H1, H2|discriminate].
    + destruct He as [Hc Hx]. right.
      assert (Hsub : i_sub (s_inner s x) = true) by (pose proof (w_fr H) as F; apply Forall_inv in F; destruct Hc; subst; auto).
      destruct (w_create H i x Z1) as [_ [K' Z]]; [unfold ope; now rewrite Hsub, Hx|]. injection Z as -> <-.
      split; [apply Keep; auto; discriminate|]. right. exists x.
      destruct (w_arr H i Z1) as (q & _ & Y). specialize (Y (or_intror eq_refl)).
      destruct Z2 as [->|[j ->]]; auto. rewrite Hp in Y. change (p ++ [TArrive i; TEnd j]) with (p ++ [TArrive i] ++ [TEnd j]) in Y. rewrite app_assoc in Y.
      apply app_inj_tail in Y. destruct Y as [_ Y]. discriminate.
    + destruct He as [-> Hs]. assert (Y : shut s = true); [|congruence]. apply (w_quiet H m); [now left|]. intros Q'. rewrite Q' in Z1. destruct Z1.
Qed.

Lemma perform_mute : forall a s s' K, perform k a s = Some (s', K) ->
  s_tr s' = s_tr s \/ (exists m, s_tr s' = s_tr s ++ [TUp m]) \/
  s_tr s' = s_tr s ++ [TArrive (s_arrived s)] /\ (In (s_arrived s) (pend K) \/ k = Exhaust /\ s_nu s <> 0 \/ exists n, k = Concurrent n).
Proof.
  intros a s s' K R. destruct a as [l|e| | |i m]; cbn [perform] in R.
  - destruct (is_torn k s); [inversion R; subst; auto|]. right. right. destruct k eqn:Ek.
    + destruct (_ <? _); inversion R; subst; split; eauto.
    + inversion R; subst. split; auto. left. rewrite pend_app. apply in_or_app. right. now left.
    + change (s_nu (log (with_arrived s (S (s_arrived s))) (TArrive (s_arrived s)))) with (s_nu s) in R.
      destruct (s_nu s =? 0) eqn:Q; inversion R; subst; split; auto.
      * left. rewrite pend_app. apply in_or_app. right. now left.
      * right. left. split; auto. apply Nat.eqb_neq. auto.
  - destruct (is_torn k s); [inversion R; subst; auto|]. right. left. exists (Err e). destruct (set_error _); [|discriminate]. destruct k; inversion R; subst; auto.
  - destruct (is_torn k s); [inversion R; subst; auto|]. right. left. exists Cmp. destruct (set_complete _); [|discriminate]. destruct (set_unsubscribe _); [|discriminate].
    destruct (can_downstream_complete _); [destruct k|]; inversion R; subst; auto.
  - destruct (is_torn k s) eqn:Et; [inversion R; subst; auto|]. right. left. exists Uns. unfold unsubscribe in R.
    change (is_torn k (log s (TUp Uns))) with (is_torn k s) in R. rewrite Et in R. destruct k; inversion R; subst; auto.
  - destruct (_ || _); inversion R; subst; auto.
Qed.

Lemma ope_liv : forall s, W [] s -> num ope s = num liv s.
Proof.
  intros s H. apply cnt_ext. intros i _. unfold ope, liv. destruct (i_sub (s_inner s i)); auto. destruct (i_completed (s_inner s i)) eqn:Q; auto.
  destruct (w_comp H i Q) as [Z|Z]; [|discriminate]. now rewrite Z.
Qed.

Lemma perform_T : forall a s s' K, W [] s -> T [] s -> perform k a s = Some (s', K) -> T K s'.
Proof.
  intros a s s' K H HT R p i r Hp Ho Hw.
  assert (Old : forall r0, s_tr s = p ++ TArrive i :: r0 -> settled i r0) by (intros r0 Hr; destruct (HT p i r0 Hr Ho Hw) as [Z|[[] _]]; auto).
  destruct (perform_mute _ _ R) as [Q|[[m Q]|[Q HQ]]]; rewrite Q in Hp.
  - auto.
  - apply snoc_split in Hp. destruct Hp as [(-> & <- & Z)|(r' & -> & Hp)]; [discriminate|]. left. apply settled_snoc. auto.
  - apply snoc_split in Hp. destruct Hp as [(-> & <- & Z)|(r' & -> & Hp)]; [|left; apply settled_snoc; auto].
    injection Z as <-. right. split; auto. destruct HQ as [HQ|[[HQ1 HQ2]|[n HQ]]]; auto; [|rewrite HQ in Hk; destruct Hk].
    exfalso. destruct Hw as [Hw|Hw]; [congruence|]. rewrite (mirror_running (w_mir H)), <- (ope_liv H) in Hw.
    apply HQ2. rewrite (w_nu H), Hw. reflexivity.
Qed.

Lemma flatten_T : forall fuel h s, flatten down k fuel h init = Fine s -> taken down wh (s_tr s).
Proof.
  intros fuel h s R. assert (Q : W [] s /\ T [] s).
  { eapply (@flatten_inv A E down k (fun _ _ => True) (fun K s => W K s /\ T K s)); eauto.
    - intros c K s0 s1 K1 [H1 H2] Hs. split; [eapply step_W; eauto|eapply step_T; eauto].
    - intros a s0 s1 K1 [H1 H2] _ Hp. split; [eapply perform_W; eauto|eapply perform_T; eauto].
    - split; [now apply init_W|]. intros p i r Hp. destruct p; discriminate. }
  destruct Q as [_ HT]. intros p i r Hp Ho Hw. destruct (HT p i r Hp Ho Hw) as [Z|[[] _]]. exact Z.
Qed.

(** *** What the destination is told. *)
Definition calm1 K s : Prop := shut s = false /\ closing_in K = false.
Definition completes (p : list ev) : Prop := match k with Switch => latest_completed p | _ => taken_completed p end.
Record Cr K s : Prop := {
  r_sub : k = Switch -> forall i, S i = s_arrived s -> i_sub (s_inner s i) = true \/ In i (pend K);
  r_kunsub : forall i, In (KUnsub i) K -> i_completed (s_inner s i) = true;
  r_from : forall i, In (KUnsubFrom i) K -> i_closed (s_inner s i) = true \/ (k = Switch /\ S i < s_arrived s);
  r_closed : forall i, i_closed (s_inner s i) = true -> (k = Switch -> S i = s_arrived s) -> i_completed (s_inner s i) = true;
  r_done : is_completed (s_up s) = true -> s_nc s <> 0
}.
Definition just s (m : ncall A E) : Prop :=
  match m with
  | Cmp => completes (s_tr s)
  | Uns => outer_unsubscribed (s_tr s) = true
  | _ => exists q e, s_tr s = q ++ [e] /\ owed e = Some m
  end.
Definition quietc (c : cmd) : bool := match c with KCall _ _ | KInnerCompleted _ | KCreate _ _ => false | _ => true end.

Record V K s : Prop := {
  v_w : W K s;
  v_civ : forallb (@civil1 A E) K = true;
  v_cr : calm1 K s -> Cr K s;
  v_top : shut s = false -> forall m K', K = KTell m :: K' -> just s m;
  v_uns : shut s = false -> In (KTell Uns) K -> outer_unsubscribed (s_tr s) = true \/
            exists m K', K = KTell m :: K' /\ is_closing m = true /\ m <> Uns;
  v_tail : forall m, In (KTell m) (tl K) -> m = Uns;
  v_sep : shut s = false -> closing_in (tl K) = true -> forallb quietc K = true;
  v_tr : always (relays down completes) (s_tr s)
}.

(** Nothing is left running: the result completes. *)
Lemma all_over : forall K s, W K s ->
  (k = Switch -> forall i, S i = s_arrived s -> i_sub (s_inner s i) = true \/ In i (pend K)) ->
  (forall i, i_closed (s_inner s i) = true -> (k = Switch -> S i = s_arrived s) -> i_completed (s_inner s i) = true) ->
  pend K = [] -> num liv s = 0 -> is_completed (s_up s) = true -> completes (s_tr s).
Proof.
  intros K s H C1 C2 Hp Hl Hu. pose proof (w_mir H) as M.
  assert (Q : forall i, i_sub (s_inner s i) = true -> (k = Switch -> S i = s_arrived s) -> i_completed (s_inner s i) = true).
  { intros i Hi Hs. destruct (i_closed (s_inner s i)) eqn:Ec; [now apply C2|].
    pose proof (@cnt_zero _ _ Hl i (w_sub H i Hi)) as Z. cbn beta in Z. unfold liv in Z. rewrite Hi, Ec in Z. cbn in Z. rewrite andb_true_r in Z. now apply negb_false_iff in Z. }
  unfold completes. rewrite (m_up M) in Hu. destruct k eqn:Ek; [contradiction| |].
  - split; auto. intros i Hi. rewrite <- (m_arr M) in Hi. rewrite <- (m_cmp M). apply Q; auto.
    destruct (C1 eq_refl i Hi) as [Z|Z]; auto. rewrite Hp in Z. destruct Z.
  - split; auto. intros i Hi. rewrite <- (m_sub M) in Hi. rewrite <- (m_cmp M). apply Q; auto. congruence.
Qed.

Lemma calm_flags : forall K s, W K s -> calm1 K s -> is_closed (s_down s) = false /\ is_errored (s_up s) = false /\ ~ In KTear K.
Proof.
  intros K s H [C1 C2]. repeat split.
  - destruct (is_closed (s_down s)) eqn:Q; auto. destruct (w_down H Q); congruence.
  - destruct (is_errored (s_up s)) eqn:Q; auto. destruct (w_uperr H Q); congruence.
  - intros Q. destruct (w_tear H Q); congruence.
Qed.
Lemma liv_ope : forall s, num ope s = 0 -> num liv s = 0.
Proof.
  intros s H. apply cnt_none. intros i Hi. pose proof (@cnt_zero _ _ H i Hi) as Z. cbn beta in Z. unfold ope in Z. unfold liv.
  destruct (i_sub (s_inner s i)), (i_closed (s_inner s i)), (i_completed (s_inner s i)); auto; discriminate.
Qed.
Lemma calm_unsub : forall i K s, W (KOnUnsub i :: K) s -> Cr (KOnUnsub i :: K) s -> calm1 (KOnUnsub i :: K) s -> can_downstream_unsubscribe s = false.
Proof.
  intros i K s H C Hc. destruct (calm_flags H Hc) as (F1 & F2 & F3). unfold can_downstream_unsubscribe. rewrite F1, F2, !orb_false_r.
  destruct (is_unsubscribed (s_up s)) eqn:Eu; [|now rewrite andb_false_r]. apply (w_upuns H) in Eu. pose proof (r_done C Eu) as Hd.
  destruct (s_nu s =? 0) eqn:En; [|now rewrite andb_false_r]. apply Nat.eqb_eq in En. exfalso. apply Hd.
  pose proof (w_nu H) as Q1. pose proof (w_nc H) as Q2. destruct (W_tl H) as (T1 & T2 & _). rewrite nic_cons, T2 in Q2. cbn [is_ic Nat.add] in Q2.
  assert (num ope s = 0) by lia. pose proof (@liv_ope s H0). lia.
Qed.

Lemma Cr_same : forall K s s', s_inner s' = s_inner s -> s_arrived s' = s_arrived s ->
  s_nc s' = s_nc s -> is_completed (s_up s') = is_completed (s_up s) -> Cr K s -> Cr K s'.
Proof. intros K s s' H1 H2 H3 H4 []. constructor; rewrite ?H1, ?H2, ?H3, ?H4; auto. Qed.
Lemma Cr_stack : forall c K K1 s, Cr (c :: K) s -> (forall i l, c <> KCreate i l) -> (forall i, In (KUnsub i) K1 -> i_completed (s_inner s i) = true) ->
  (forall i, ~ In (KUnsubFrom i) K1) -> Cr (K1 ++ K) s.
Proof.
  intros c K K1 s [] Hc H1 H2. constructor; auto.
  - intros Hs i Hi. destruct (r_sub0 Hs i Hi) as [Z|Z]; auto. right. rewrite pend_app. apply in_or_app. right. rewrite pend_cons in Z.
    destruct c; auto. now destruct (Hc i0 l).
  - intros i Hi. apply in_app_or in Hi. destruct Hi as [Hi|Hi]; auto. apply r_kunsub0. now right.
  - intros i Hi. apply in_app_or in Hi. destruct Hi as [Hi|Hi]; [destruct (H2 _ Hi)|]. apply r_from0. now right.
Qed.

Lemma unsub_Cr : forall c i K s s' K1, Cr (c :: K) s -> c = KUnsub i \/ c = KUnsubFrom i ->
  do_unsub i s = Some (s', K1) -> (is_completed (s_up s) = true -> s_nc s' <> 0) -> Cr (K1 ++ K) s'.
Proof.
  intros c i K s s' K1 C Hc R Hd.
  assert (Nc : forall i l, c <> KCreate i l) by (destruct Hc; subst; discriminate).
  unfold do_unsub in R. destruct (i_closed (s_inner s i)) eqn:Ec.
  { injection R as <- <-. apply (@Cr_stack c K []); auto. }
  destruct (minus_one (s_nu s)) as [nu|] eqn:Enu; [|discriminate].
  destruct (if i_completed (s_inner s i) then Some (s_nc s) else minus_one (s_nc s)) as [nc|] eqn:Enc; [|discriminate].
  set (fire := negb (is_unsubscribed (s_down s)) && i_ou (s_inner s i)) in *.
  assert (Q : K1 = if fire then [KOnUnsub i] else []) by (inversion R; auto).
  assert (I : forall j, s_inner s' j = if j =? i then set_closed fire (s_inner s i) else s_inner s j) by (inversion R; auto).
  assert (Ar : s_arrived s' = s_arrived s) by (inversion R; auto).
  assert (Up : s_up s' = s_up s) by (inversion R; auto). clear R.
  assert (In1 : forall x, In x (K1 ++ K) -> In x (c :: K) \/ x = KOnUnsub i).
  { intros x Hx. apply in_app_or in Hx. destruct Hx as [Hx|Hx]; [|left; now right]. rewrite Q in Hx. destruct fire; [|destruct Hx]. destruct Hx as [<-|[]]. auto. }
  assert (Ic : forall j, i_completed (s_inner s' j) = i_completed (s_inner s j)) by (intros j; rewrite I; destruct (j =? i) eqn:Ej; auto; apply Nat.eqb_eq in Ej; now subst j).
  assert (Cl : i_completed (s_inner s i) = true \/ (k = Switch /\ S i < s_arrived s)).
  { destruct Hc; subst c; [left; apply (r_kunsub C); now left|]. destruct (r_from C i (or_introl eq_refl)) as [Z|Z]; auto. congruence. }
  destruct C. constructor; rewrite ?Ar, ?Up; auto.
  - intros Hs j Hj. destruct (r_sub0 Hs j Hj) as [Z|Z].
    + left. rewrite I. destruct (j =? i) eqn:Ej; auto. apply Nat.eqb_eq in Ej. subst j. auto.
    + right. rewrite pend_app. apply in_or_app. right. rewrite pend_cons in Z. destruct c; auto. now destruct (Nc i0 l).
  - intros j Hj. rewrite Ic. apply r_kunsub0. destruct (In1 _ Hj) as [Z|Z]; [auto|discriminate].
  - intros j Hj. destruct (In1 _ Hj) as [Z|Z]; [|discriminate]. destruct (r_from0 j Z) as [Y|Y]; auto. left. rewrite I. now destruct (j =? i).
  - intros j Hj Hs. rewrite Ic. rewrite I in Hj. destruct (j =? i) eqn:Ej; auto. apply Nat.eqb_eq in Ej. subst j. destruct Cl as [Z|[Z1 Z2]]; auto. specialize (Hs Z1). lia.
Qed.

Lemma step_Cr : forall c K s s' K1, W (c :: K) s -> forallb (@civil1 A E) (c :: K) = true -> Cr (c :: K) s -> calm1 (c :: K) s ->
  step c s = Some (s', K1) -> calm1 (K1 ++ K) s' -> Cr (K1 ++ K) s'.
Proof.
  intros c K s s' K1 H Hciv C Hcalm R Hcalm'. assert (Hcalm0 := Hcalm). destruct Hcalm0 as [Ks Kt]. destruct (calm_flags H Hcalm) as (F1 & F2 & F3).
  destruct (W_tl H) as (T1 & T2 & T3 & T4).
  assert (Ks' : t_shut (s_told s) = false) by exact Ks.
  assert (Keep : forall K0, (forall i l, c <> KCreate i l) -> (forall i, In (KUnsub i) K0 -> i_completed (s_inner s i) = true) ->
    (forall i, ~ In (KUnsubFrom i) K0) -> Cr (K0 ++ K) s) by (intros K0 N1 N2 N3; now apply (@Cr_stack c)).
  assert (Pop : (forall i l, c <> KCreate i l) -> Cr K s) by (intros N; apply (Keep []); auto; intros i []).
  destruct c as [m| | | |i l|i m|i|i|i|i|i| |i| |i]; cbn in T4; try contradiction.
  - cbn [HoModel.step] in R. rewrite Ks' in R. assert (Z : s' = log (with_told s (tell down m (s_told s))) (TOut m) /\ K1 = []) by (destruct k; [contradiction| |]; inversion R; auto).
    destruct Z as [-> ->]. assert (Q : Cr K s) by (apply Pop; discriminate). revert Q. apply Cr_same; auto.
  - destruct F3. now left.
  - (* KCreate *) cbn [HoModel.step] in R.
    assert (E1 : exists v, i_sub v = true /\ i_closed v = false /\ s' = log (with_inner s i v) (TSub i) /\ K1 = map (KCall i) l ++ [KSubscribed i]).
    { destruct k; [contradiction| |]; injection R as <- <-; eexists; repeat split; reflexivity. }
    destruct E1 as (v & V1 & V2 & -> & ->).
    assert (Hi0 : In i (pend (KCreate i l :: K))) by (rewrite pend_cons; cbn; auto).
    destruct (w_wait H i Hi0) as [Hi Hni].
    assert (I : forall j, s_inner (log (with_inner s i v) (TSub i)) j = if j =? i then v else s_inner s j) by reflexivity.
    assert (In1 : forall x, In x ((map (KCall i) l ++ [KSubscribed i]) ++ K) -> (exists m, x = KCall i m) \/ x = KSubscribed i \/ In x K).
    { intros x Hx. apply in_app_or in Hx. destruct Hx as [Hx|Hx]; auto. apply in_calls in Hx. tauto. }
    assert (Pe : pend K = []) by (pose proof (w_pend H) as Q; rewrite pend_cons in Q; cbn in Q; destruct (pend K); auto; cbn in Q; lia).
    destruct C. constructor; auto.
    + intros Hs j Hj. left. rewrite I. destruct (j =? i) eqn:Ej; auto. apply Nat.eqb_neq in Ej. change (s_arrived (log (with_inner s i v) (TSub i))) with (s_arrived s) in Hj. lia.
    + intros j Hj. destruct (In1 _ Hj) as [[m Z]|[Z|Z]]; try discriminate. rewrite I. destruct (j =? i) eqn:Ej; [|apply r_kunsub0; now right].
      apply Nat.eqb_eq in Ej. subst j. exfalso. specialize (r_kunsub0 i (or_intror Z)). rewrite Hni in r_kunsub0. discriminate.
    + intros j Hj. destruct (In1 _ Hj) as [[m Z]|[Z|Z]]; try discriminate. assert (Y := w_froms H). rewrite pend_cons in Y. cbn [pend1 app tl] in Y.
      specialize (Y ltac:(discriminate)). apply from_in in Z. congruence.
    + intros j. rewrite I. destruct (j =? i) eqn:Ej; [congruence|auto].
  - (* KCall *) cbn [HoModel.step] in R. destruct (i_closed (s_inner s i) || negb (i_sub (s_inner s i))) eqn:Ec.
    { injection R as <- <-. apply Pop. discriminate. }
    destruct m as [a|e| |].
    + injection R as <- <-. assert (Q : Cr ([KTell (Nxt a); KAfterNext i] ++ K) s) by (apply Keep; [discriminate|nope|intros j Hj; nope]). revert Q. apply Cr_same; auto.
    + destruct (set_error (s_down (log s (TIn i (Err e))))) as [d|] eqn:Ed; [|discriminate]. injection R as <- <-. destruct Hcalm' as [_ Z]. discriminate.
    + assert (Z : s' = with_inner (log s (TIn i Cmp)) i (set_completed (s_inner s i)) /\ K1 = [KInnerCompleted i; KUnsub i]) by (destruct k; [contradiction| |]; injection R as <- <-; auto).
      destruct Z as [-> ->]. set (s' := with_inner _ _ _).
      assert (I : forall j, s_inner s' j = if j =? i then set_completed (s_inner s i) else s_inner s j) by reflexivity.
      assert (Q : Cr K s) by (apply Pop; discriminate). destruct Q. constructor; auto.
      * intros Hs j Hj. destruct (r_sub0 Hs j Hj) as [Z|Z]; auto. left. rewrite I. destruct (j =? i) eqn:Ej; auto. apply Nat.eqb_eq in Ej. now subst j.
      * intros j Hj. rewrite I. destruct (j =? i) eqn:Ej; [auto|]. apply r_kunsub0. destruct Hj as [Hj|[Hj|Hj]]; auto; [discriminate|].
        injection Hj as ->. rewrite Nat.eqb_refl in Ej. discriminate.
      * intros j Hj. assert (Z : In (KUnsubFrom j) K) by (destruct Hj as [Hj|[Hj|Hj]]; auto; discriminate). destruct (r_from0 j Z) as [Y|Y]; auto.
        left. rewrite I. destruct (j =? i) eqn:Ej; auto. apply Nat.eqb_eq in Ej. now subst j.
      * intros j Hj Hs. rewrite I in *. destruct (j =? i) eqn:Ej; auto.
    + cbn in Hciv. discriminate.
  - cbn [HoModel.step] in R. rewrite Ks' in R. injection R as <- <-. apply Pop. discriminate.
  - (* KInnerCompleted *) cbn [HoModel.step] in R. destruct (s_nc s) as [|nc] eqn:En; [discriminate|].
    destruct (can_downstream_complete (with_counts s nc (s_nu s))) eqn:Ed.
    { destruct (set_complete _); [|discriminate]. injection R as <- <-. destruct Hcalm' as [_ Z]. discriminate. }
    injection R as <- <-. assert (Q : Cr K s) by (apply Pop; discriminate). destruct Q. constructor; auto.
    cbn. intros Hu Hz. subst nc. unfold can_downstream_complete, queue_empty in Ed. cbn in Ed. rewrite (w_nq H), Hu, F1 in Ed. discriminate.
  - (* KUnsub *) cbn [HoModel.step] in R. eapply unsub_Cr; eauto.
    intros Hu. unfold do_unsub in R. destruct (i_closed (s_inner s i)) eqn:Ec; [injection R as <- <-; now apply (r_done C)|].
    rewrite (r_kunsub C i (or_introl eq_refl)) in R. destruct (minus_one (s_nu s)); [|discriminate]. injection R as <- <-. now apply (r_done C).
  - (* KUnsubFrom *) cbn [HoModel.step] in R. destruct (existsb (Nat.eqb i) (s_busy s)); [injection R as <- <-; apply Pop; discriminate|].
    assert (R0 := R). eapply unsub_Cr; eauto. intros Hu.
    unfold do_unsub in R. destruct (i_closed (s_inner s i)) eqn:Ec; [injection R as <- <-; now apply (r_done C)|].
    destruct (r_from C i (or_introl eq_refl)) as [Z|[Hs Hlt]]; [congruence|].
    assert (W' : W (K1 ++ K) s') by (eapply do_unsub_W; eauto). pose proof (w_nc W') as Q. intros Hz. rewrite Hz in Q.
    assert (Hp : pend (KUnsubFrom i :: K) <> []).
    { intros Hp. assert (Y : S i = s_arrived s) by (apply (w_latest H Hs); auto; unfold ope; now rewrite T4, Ec). lia. }
    rewrite pend_app in Q. rewrite pend_cons in Hp. cbn [pend1 app] in Hp. rewrite app_length in Q. destruct (pend K); [congruence|]. cbn [length] in Q. lia.
  - (* KOnUnsub *) assert (Z : s' = s /\ K1 = if can_downstream_unsubscribe s then [KTear; KTell Uns] else []) by (cbn in R; destruct k; [contradiction| |]; injection R as <- <-; auto).
    destruct Z as [-> ->]. rewrite (calm_unsub H C Hcalm). apply Pop. discriminate.
  - cbn [HoModel.step] in R. assert (Q : Cr K s) by (apply Pop; discriminate). assert (Z : K1 = [] /\ (s' = s \/ exists x, s' = with_cur s x)).
    { destruct (i_closed (s_inner s i)); [injection R as <- <-; auto|]. destruct k; [contradiction| |]; injection R as <- <-; eauto. }
    destruct Z as [-> [->|[x ->]]]; auto. revert Q. apply Cr_same; auto.
  - cbn [HoModel.step] in R. rewrite Ks' in R. cbn in R. injection R as <- <-. apply Pop. discriminate.
  - cbn [HoModel.step] in R. injection R as <- <-. assert (Q : Cr K s) by (apply Pop; discriminate). revert Q. apply Cr_same; auto.
Qed.

(** What a step leaves as it was. *)
Definition untold (c : cmd) : bool := match c with KTell _ => false | _ => true end.
Lemma step_shut : forall c s s' K1, step c s = Some (s', K1) -> (forall m, c <> KTell m) -> shut s' = shut s.
Proof.
  intros c s s' K1 R Hc.
  assert (Un : forall i, do_unsub i s = Some (s', K1) -> shut s' = shut s).
  { intros i Hu. unfold do_unsub in Hu. destruct (i_closed (s_inner s i)); [inversion Hu; subst; auto|].
    destruct (minus_one (s_nu s)); [|discriminate]. destruct (if i_completed _ then _ else _); [|discriminate]. inversion Hu; subst. auto. }
  destruct c as [m| | | |i l|i m|i|i|i|i|i| |i| |i]; cbn [HoModel.step] in R.
  - now destruct (Hc m).
  - destruct (s_torn s); [|destruct k]; inversion R; subst; auto.
  - inversion R; subst; auto.
  - destruct (s_queue s) as [|[i l] q]; inversion R; subst; auto.
  - destruct k; inversion R; subst; auto.
  - destruct (_ || _); [inversion R; subst; auto|]. destruct m; try (inversion R; subst; auto; fail). destruct (set_error _); inversion R; subst; auto.
  - destruct (t_shut (s_told s)); inversion R; subst; auto.
  - destruct (s_nc s); [discriminate|]. destruct (can_downstream_complete _); [destruct (set_complete _); [|discriminate]|]; inversion R; subst; auto.
  - eauto.
  - destruct (existsb _ _); [inversion R; subst; auto|]. eauto.
  - destruct k; inversion R; subst; auto.
  - inversion R; subst; auto.
  - destruct (i_closed _); [|destruct k; try destruct (nth_error _ _)]; inversion R; subst; auto.
  - destruct (_ && _); inversion R; subst; auto.
  - inversion R; subst; auto.
Qed.
Lemma tell_shut : forall m K s s' K1, W (KTell m :: K) s -> step (KTell m) s = Some (s', K1) ->
  K1 = [] /\ (shut s = true -> shut s' = true) /\ (is_closing m = true -> shut s' = true).
Proof.
  intros m K s s' K1 H R. cbn [HoModel.step] in R. unfold shut. destruct (t_shut (s_told s)) eqn:Es; [injection R as <- <-; auto|].
  assert (Z : s' = log (with_told s (tell down m (s_told s))) (TOut m) /\ K1 = []) by (destruct k; [contradiction| |]; inversion R; auto).
  destruct Z as [-> ->]. repeat split; [discriminate|]. intros Q. destruct (@tell_out A E down m (s_told s) Es) as [_ Z]. cbn [s_told log with_told]. now rewrite Z, Q.
Qed.
Lemma calm_back : forall c K s s' K1, W (c :: K) s -> step c s = Some (s', K1) -> calm1 (K1 ++ K) s' -> calm1 (c :: K) s.
Proof.
  intros c K s s' K1 H R [C1 C2]. rewrite closing_app in C2. apply orb_false_iff in C2. destruct C2 as [C2 C3].
  destruct (untold c) eqn:U.
  - assert (Hc : forall m, c <> KTell m) by (intros m ->; discriminate). rewrite (step_shut _ R Hc) in C1. split; auto. destruct c; auto. discriminate.
  - destruct c; try discriminate. destruct (tell_shut H R) as (_ & Z1 & Z2). split.
    + destruct (shut s); auto. rewrite Z1 in C1; auto.
    + cbn. change (is_closing c || closing_in K = false). rewrite C3, orb_false_r. destruct (is_closing c); auto. rewrite Z2 in C1; auto.
Qed.
Lemma unsub_mono : forall c s s' K1, step c s = Some (s', K1) -> outer_unsubscribed (s_tr s) = true -> outer_unsubscribed (s_tr s') = true.
Proof. intros c s s' K1 R H. destruct (mute1 _ _ R) as [[-> _]|(e & -> & _)]; auto. rewrite outer_unsubscribed_snoc, H. auto. Qed.

Lemma step_trV : forall c K s s' K1, V (c :: K) s -> step c s = Some (s', K1) -> always (relays down completes) (s_tr s').
Proof.
  intros c K s s' K1 H R. assert (M := w_mir (v_w H)).
  destruct (mute1 _ _ R) as [[-> _]|(e & -> & He)]; [apply (v_tr H)|]. apply always_snoc; [apply (v_tr H)|].
  destruct e as [i|m|i|i m|i|m]; try contradiction; try exact I.
  destruct He as [-> Hs]. assert (J := v_top H Hs eq_refl). split; [now apply (m_shut M)|]. destruct m; auto.
Qed.

(** When a command that tells nothing is run: what is on the stack stays justified. *)
Lemma V_std : forall c K s s' K1, V (c :: K) s -> step c s = Some (s', K1) ->
  (forall m, c = KTell m -> K1 = []) ->
  (shut s' = false -> forall m K', K1 = KTell m :: K' -> just s' m) ->
  (shut s' = false -> In (KTell Uns) K1 -> outer_unsubscribed (s_tr s) = true) ->
  (forall m, In (KTell m) (tl K1) -> m = Uns) ->
  forallb (@civil1 A E) K1 = true ->
  (forallb quietc (c :: K) = true -> forallb quietc K1 = true) ->
  (shut s = false -> closing_in (tl K1) = true -> closing_in K = true) ->
  V (K1 ++ K) s'.
Proof.
  intros c K s s' K1 H R Htell Hj Hu Ht Hciv Hq Hcl. assert (HW := v_w H).
  assert (Hcv := v_civ H). cbn [forallb] in Hcv. apply andb_true_iff in Hcv. destruct Hcv as [Hc0 Hc1].
  assert (Up : shut s' = false -> In (KTell Uns) K -> outer_unsubscribed (s_tr s') = true).
  { intros Hs Hin. assert (Hs0 : shut s = false).
    { destruct (untold c) eqn:U; [rewrite <- (step_shut _ R); auto; intros m ->; discriminate|]. destruct c; try discriminate.
      destruct (tell_shut HW R) as (_ & Z & _). destruct (shut s); auto. rewrite Z in Hs; auto. }
    destruct (v_uns H Hs0 (or_intror Hin)) as [Z|(m & K' & Z1 & Z2 & Z3)]; [eapply unsub_mono; eauto|].
    injection Z1 as -> _. destruct (tell_shut HW R) as (_ & _ & Z). rewrite Z in Hs; auto. discriminate. }
  constructor.
  - eapply step_W; eauto.
  - now rewrite forallb_app, Hciv, Hc1.
  - intros Hcalm. assert (B := calm_back HW R Hcalm). eapply step_Cr; eauto; [apply (v_civ H)|now apply (v_cr H)].
  - intros Hs m K' Q. destruct K1 as [|x K1]; [|injection Q as -> _; eapply Hj; eauto]. cbn in Q.
    assert (Z : m = Uns) by (apply (v_tail H); cbn; rewrite Q; now left). subst m. cbn [just]. apply Up; auto. rewrite Q. now left.
  - intros Hs Hin. left. apply in_app_or in Hin. destruct Hin as [Hin|Hin]; auto. eapply unsub_mono; eauto.
  - intros m Hm. destruct K1 as [|x K1]; cbn [app tl] in Hm.
    + apply (v_tail H). cbn. destruct K; [destruct Hm|]. now right.
    + apply in_app_or in Hm. destruct Hm as [Hm|Hm]; [now apply Ht|now apply (v_tail H)].
  - intros Hs Hcx.
    assert (Hs0 : shut s = false).
    { destruct (untold c) eqn:U; [rewrite <- (step_shut _ R); auto; intros m ->; discriminate|]. destruct c; try discriminate.
      destruct (tell_shut HW R) as (_ & Z & _). destruct (shut s); auto. rewrite Z in Hs; auto. }
    assert (Y : closing_in K = true).
    { destruct K1 as [|x K1]; cbn [app tl] in Hcx.
      - destruct K as [|y K]; auto. cbn in *. change (closing_in K = true) in Hcx. change ((match y with KTell m => is_closing m | _ => false end) || closing_in K = true). rewrite Hcx. apply orb_true_r.
      - rewrite closing_app in Hcx. apply orb_true_iff in Hcx. destruct Hcx as [Z|Z]; auto. }
    assert (X := v_sep H Hs0 Y). rewrite forallb_app, Hq by auto. cbn [forallb] in X. apply andb_true_iff in X. tauto.
  - eapply step_trV; eauto.
Qed.

Lemma step_V : forall c K s s' K1, V (c :: K) s -> step c s = Some (s', K1) -> V (K1 ++ K) s'.
Proof.
  intros c K s s' K1 H R. assert (HW := v_w H).
  assert (Easy : (forall m, c = KTell m -> K1 = []) -> forallb untold K1 = true -> forallb (@civil1 A E) K1 = true -> (quietc c = true -> forallb quietc K1 = true) -> V (K1 ++ K) s').
  { intros E0 E1 E2 E3.
    assert (NT : forall m, ~ In (KTell m) K1) by (intros m Q; rewrite forallb_forall in E1; apply E1 in Q; discriminate).
    apply (@V_std c K s); auto.
    - intros _ m K' ->. destruct (NT m). now left.
    - intros _ Q. now apply NT in Q.
    - intros m Q. destruct (NT m). destruct K1; [auto|now right].
    - intros Q. cbn in Q. apply andb_true_iff in Q. tauto.
    - intros _ Q. apply closing_tell in Q. destruct Q as [m Q]. destruct (NT m). destruct K1; [auto|now right]. }
  assert (Un : forall i, do_unsub i s = Some (s', K1) -> (forall m, c <> KTell m) -> V (K1 ++ K) s').
  { intros i Q Hc. assert (Z : K1 = [] \/ K1 = [KOnUnsub i]).
    { unfold do_unsub in Q. destruct (i_closed (s_inner s i)); [inversion Q; auto|].
      destruct (minus_one (s_nu s)); [|discriminate]. destruct (if i_completed _ then _ else _); [|discriminate]. inversion Q; subst. destruct (_ && _); auto. }
    apply Easy; destruct Z as [-> | ->]; auto; intros m ->; now destruct (Hc m). }
  destruct (W_tl HW) as (T1 & T2 & T3 & T4).
  destruct c as [m| | | |i l|i m|i|i|i|i|i| |i| |i]; cbn in T4; try contradiction.
  - destruct (tell_shut HW R) as (-> & _). apply Easy; auto.
  - assert (Z : K1 = []) by (cbn in R; destruct (s_torn s); [|destruct k; [contradiction| |]]; inversion R; auto). subst K1. apply Easy; auto.
  - assert (Z : K1 = map (KCall i) l ++ [KSubscribed i]) by (cbn in R; destruct k; [contradiction| |]; inversion R; auto). subst K1.
    apply Easy; try discriminate.
    + rewrite forallb_app. cbn. rewrite andb_true_r. clear. induction l; auto.
    + assert (Q := v_civ H). cbn in Q. apply andb_true_iff in Q. destruct Q as [Q _]. rewrite forallb_app. cbn. rewrite andb_true_r. clear - Q. induction l; cbn in *; auto.
      apply andb_true_iff in Q. destruct Q as [-> Q]. auto.
  - cbn [HoModel.step] in R. destruct (i_closed (s_inner s i) || negb (i_sub (s_inner s i))) eqn:Ec; [injection R as <- <-; apply Easy; auto|].
    destruct m as [a|e| |].
    + injection R as Q <-. subst s'. apply (@V_std (KCall i (Nxt a)) K s); auto; try discriminate.
      * cbn. rewrite Ec. reflexivity.
      * intros _ m K' Q. injection Q as <- _. exists (s_tr s), (TIn i (Nxt a)). auto.
      * intros _ Q. nope.
      * cbn [tl]. intros m Q. nope.
    + destruct (set_error (s_down (log s (TIn i (Err e))))) as [d|] eqn:Ed; [|discriminate]. injection R as Q <-. subst s'. apply (@V_std (KCall i (Err e)) K s); auto; try discriminate.
      * cbn. rewrite Ec. cbn in Ed. now rewrite Ed.
      * intros _ m K' Q. injection Q as <- _. exists (s_tr s), (TIn i (Err e)). auto.
      * intros _ Q. nope.
      * cbn [tl]. intros m Q. nope.
    + assert (Z : K1 = [KInnerCompleted i; KUnsub i]) by (destruct k; [contradiction| |]; inversion R; auto). subst K1. apply Easy; auto; discriminate.
    + inversion R; subst. apply Easy; auto. discriminate.
  - cbn in R. destruct (t_shut (s_told s)); inversion R; subst; apply Easy; auto; discriminate.
  - (* KInnerCompleted *) cbn [HoModel.step] in R. destruct (s_nc s) as [|nc] eqn:En; [discriminate|].
    destruct (can_downstream_complete (with_counts s nc (s_nu s))) eqn:Ed; [|inversion R; subst; apply Easy; auto; discriminate].
    destruct (set_complete (s_down (with_counts s nc (s_nu s)))) as [d|] eqn:Es; [|discriminate].
    assert (Z : K1 = [KTell Cmp] /\ s' = with_down (with_counts s nc (s_nu s)) d) by (inversion R; auto). destruct Z as [-> ->].
    apply (@V_std (KInnerCompleted i) K s); auto; try discriminate.
    + cbn [HoModel.step]. rewrite En, Ed. now rewrite Es.
    + intros Hs m K' Q. injection Q as <- _. cbn [just].
      assert (Hop : ope (s_inner s i) = true) by (unfold ope; rewrite (w_icopen HW i (or_introl eq_refl)), (proj1 T4); auto).
      assert (Hpe : pend (KInnerCompleted i :: K) = []).
      { destruct (pend (KInnerCompleted i :: K)) as [|x l] eqn:Q; auto. destruct (w_create HW x i) as [_ [K'' Z]]; [rewrite Q; now left|auto|discriminate]. }
      unfold can_downstream_complete in Ed. cbn in Ed. rewrite !andb_true_iff in Ed. destruct Ed as [[[E1 E2] E3] E4]. apply Nat.eqb_eq in E2. subst nc.
      assert (Hcalm : calm1 (KInnerCompleted i :: K) s).
      { split; auto. destruct (closing_in (KInnerCompleted i :: K)) eqn:Q; auto. assert (Z := v_sep H Hs Q). discriminate. }
      assert (C := v_cr H Hcalm). apply (@all_over (KInnerCompleted i :: K) s); auto; [apply (r_sub C)|apply (r_closed C)|].
      pose proof (w_nc HW) as Q. rewrite Hpe, nic_cons, T2, En in Q. cbn in Q. lia.
    + intros _ Q. nope.
    + cbn [tl]. intros m Q. nope.
  - eapply Un; eauto. discriminate.
  - cbn in R. destruct (existsb _ _); [inversion R; subst; apply Easy; auto; discriminate|]. eapply Un; eauto. discriminate.
  - (* KOnUnsub *)
    assert (Z : s' = s /\ K1 = if can_downstream_unsubscribe s then [KTear; KTell Uns] else []) by (cbn in R; destruct k; [contradiction| |]; injection R as <- <-; auto).
    destruct Z as [-> ->]. destruct (can_downstream_unsubscribe s) eqn:Ecan; [|apply Easy; auto].
    assert (Nc : shut s = false -> closing_in K = true).
    { intros Hs. destruct (closing_in K) eqn:Q; auto. assert (Hcalm : calm1 (KOnUnsub i :: K) s) by (split; auto). rewrite (calm_unsub HW (v_cr H Hcalm) Hcalm) in Ecan. discriminate. }
    apply (@V_std (KOnUnsub i) K s); auto; try discriminate.
    + intros Hs _. destruct (closing_tell _ (Nc Hs)) as [m Hm]. assert (m = Uns) by (apply (v_tail H); exact Hm). subst m.
      destruct (v_uns H Hs (or_intror Hm)) as [Z|(m & K' & Z & _)]; [auto|discriminate].
    + intros m [Q|[]]. now injection Q.
  - assert (Z : K1 = []) by (cbn in R; destruct (i_closed _); [|destruct k; [contradiction| |]]; inversion R; auto). subst K1. apply Easy; auto; discriminate.
  - (* KCheck *)
    destruct (t_shut (s_told s)) eqn:Es; [|cbn [HoModel.step] in R; rewrite Es in R; cbn in R; inversion R; subst; apply Easy; auto; discriminate].
    assert (Hsh : shut s' = true) by (rewrite (step_shut _ R); [exact Es|discriminate]).
    cbn [HoModel.step] in R. assert (Hsh0 : shut s = true) by exact Es. rewrite Es in R. destruct (s_torn s) eqn:Et; cbn in R; [inversion R; subst; apply Easy; auto; discriminate|].
    assert (Z : K1 = [KTear; KTell Uns] ++ cur_cmds s) by (inversion R; auto).
    apply (@V_std KCheck K s); rewrite ?Z; auto; try congruence.
    + cbn [HoModel.step]. rewrite Es, Et. cbn [negb andb]. rewrite <- Z. exact R.
    + unfold cur_cmds. destruct (s_cur s); cbn; intros m Q; intuition congruence.
    + unfold cur_cmds. destruct (s_cur s); auto.
    + unfold cur_cmds. destruct (s_cur s); auto.
  - inversion R; subst. apply Easy; auto; discriminate.
Qed.

Definition act_ok1 (a : act A E) : bool :=
  match a with AArrive l => forallb (@nouns A E) l | AInner _ m => nouns m | _ => true end.
Lemma perform_V : forall a s s' K, V [] s -> act_ok1 a = true -> perform k a s = Some (s', K) -> V K s'.
Proof.
  intros a s s' K H Ha R. assert (HW := v_w H). assert (Kk : k = Switch \/ k = Exhaust) by (destruct k; [contradiction|auto|auto]). assert (HW' : W K s') by (eapply perform_W; eauto).
  assert (C0 : shut s = false -> Cr [] s) by (intros Hs; apply (v_cr H); split; auto).
  assert (TR : forall e, match e with TOut _ => False | _ => True end -> always (relays down completes) (s_tr s ++ [e])).
  { intros e He. apply always_snoc; [apply (v_tr H)|]. destruct e; try exact I. destruct He. }
  assert (Cu : forall x, In x (cur_cmds s) -> exists j, x = KUnsubFrom j /\ s_cur s = Some j).
  { intros x Hx. unfold cur_cmds in Hx. destruct (s_cur s); [|destruct Hx]. destruct Hx as [<-|[]]. eauto. }
  (* the result ends: what is pushed *)
  assert (Fin : forall m K0 e s2, K = KTell m :: K0 -> is_closing m = true -> m <> Uns -> s_tr s' = s_tr s ++ [e] -> match e with TOut _ => False | _ => True end ->
    (shut s2 = false -> just s' m) -> shut s' = shut s2 -> (forall x, In x K0 -> x = KTear \/ x = KTell Uns \/ exists j, x = KUnsubFrom j) -> V K s').
  { intros m K0 e s2 -> Hm Hn Htr He Hj Hs2 HK0. constructor; auto.
    - cbn. apply forallb_forall. intros x Hx. destruct (HK0 x Hx) as [->|[->|[j ->]]]; auto.
    - intros [_ Q]. cbn in Q. rewrite Hm in Q. discriminate.
    - intros Hs m' K' Q. injection Q as <- _. apply Hj. congruence.
    - intros _ _. right. eauto.
    - cbn [tl]. intros m' Hm'. destruct (HK0 _ Hm') as [Q|[Q|[j Q]]]; try discriminate. now injection Q.
    - intros _ _. cbn. apply forallb_forall. intros x Hx. destruct (HK0 x Hx) as [->|[->|[j ->]]]; auto.
    - rewrite Htr. auto. }
  assert (Mid : forall x, In x (cur_cmds s ++ [KTear; KTell Uns]) -> x = KTear \/ x = KTell Uns \/ exists j, x = KUnsubFrom j).
  { intros x Hx. apply in_app_or in Hx. destruct Hx as [Hx|[<-|[<-|[]]]]; auto. apply Cu in Hx. destruct Hx as (j & -> & _). eauto. }
  assert (Mid2 : forall x, In x ([KTear; KTell Uns] ++ cur_cmds s) -> x = KTear \/ x = KTell Uns \/ exists j, x = KUnsubFrom j).
  { intros x Hx. apply Mid. apply in_or_app. apply in_app_or in Hx. tauto. }
  destruct a as [l|e| | |i m]; cbn [perform] in R.
  - destruct (is_torn k s); [inversion R; subst; auto|].
    assert (New : forall K0, K = cur_cmds s ++ KCreate (s_arrived s) l :: K0 -> K0 = [] \/ K0 = [KCheck] -> (k = Switch \/ s_nu s = 0) ->
      s' = with_cur (with_counts (log (with_arrived s (S (s_arrived s))) (TArrive (s_arrived s))) (S (s_nc s)) (S (s_nu s))) None -> V K s').
    { intros K0 HK HK0 Hor Hs'.
      assert (No : forall c, In c K -> match c with KUnsubFrom j => s_cur s = Some j | KCreate _ l' => l' = l | KCheck => True | _ => False end).
      { intros c Hc. rewrite HK in Hc. apply in_app_or in Hc. destruct Hc as [Hc|[<-|Hc]]; auto.
        - apply Cu in Hc. destruct Hc as (j & -> & Hj). auto.
        - destruct HK0; subst K0; [destruct Hc|]. destruct Hc as [<-|[]]. auto. }
      assert (Cl : closing_in (tl K) = false).
      { destruct (closing_in (tl K)) eqn:Q; auto. apply closing_tell in Q. destruct Q as [m Q]. assert (Z : In (KTell m) K) by (destruct K; [auto|now right]). apply No in Z. destruct Z. }
      assert (Fr : s_inner s (s_arrived s) = no_inner).
      { apply (w_none HW). destruct (i_sub (s_inner s (s_arrived s))) eqn:Q; auto. apply (w_sub HW) in Q. lia. }
      constructor; auto.
      - apply forallb_forall. intros x Hx. apply No in Hx. destruct x; auto; try contradiction. subst l0. exact Ha.
      - intros [Hs _]. rewrite Hs' in *. specialize (C0 Hs). destruct C0. constructor; cbn [s_inner s_arrived with_cur with_counts log with_arrived s_nc s_up].
        + intros _ j Hj. right. assert (j = s_arrived s) by lia. subst j. rewrite HK, pend_app. apply in_or_app. right. now left.
        + intros j Hj. apply No in Hj. destruct Hj.
        + intros j Hj. apply No in Hj. assert (Sj := w_cursub HW Hj). destruct Hor as [Hor|Hor].
          * right. split; auto. apply (w_sub HW) in Sj. lia.
          * left. pose proof (w_nu HW) as Q. rewrite Hor in Q. change (length (pend [])) with 0 in Q.
            pose proof (@cnt_zero (fun j => ope (s_inner s j)) (s_arrived s) ltac:(unfold num in Q; lia) j (w_sub HW j Sj)) as Z. cbn beta in Z. unfold ope in Z. rewrite Sj in Z. now apply negb_false_iff in Z.
        + intros j Hj Hsw. destruct Kk as [Ek|Ek].
          * specialize (Hsw Ek). assert (j = s_arrived s) by lia. subst j. rewrite Fr in Hj. discriminate.
          * apply r_closed0; auto. congruence.
        + discriminate.
      - intros _ m K' Q. exfalso. rewrite HK in Q. unfold cur_cmds in Q. destruct (s_cur s); discriminate.
      - intros _ Q. apply No in Q. destruct Q.
      - intros m Q. assert (Z : In (KTell m) K) by (destruct K; [auto|now right]). apply No in Z. destruct Z.
      - congruence.
      - rewrite Hs'. cbn. apply TR. exact I. }
    destruct Kk as [Ek|Ek]; rewrite Ek in R.
    + injection R as R1 R2. apply (New [KCheck]); auto; exact (eq_sym R2).
    + change (s_nu (log (with_arrived s (S (s_arrived s))) (TArrive (s_arrived s)))) with (s_nu s) in R.
      destruct (s_nu s =? 0) eqn:En.
      * apply Nat.eqb_eq in En. injection R as R1 R2. apply (New []); auto; exact (eq_sym R2).
      * inversion R; subst s' K. constructor; auto; try (intros; contradiction); try discriminate.
        -- intros [Hs _]. destruct (C0 Hs). constructor; auto; try congruence. intros j Hj Q. apply r_closed0; auto. congruence.
        -- cbn. apply TR. exact I.
  - destruct (is_torn k s); [inversion R; subst; auto|].
    destruct (set_error (s_up (log s (TUp (Err e))))) as [u|] eqn:Eu; [|discriminate].
    assert (J : just (log s (TUp (Err e))) (Err e)) by (exists (s_tr s), (TUp (Err e)); auto).
    destruct Kk as [Ek|Ek]; rewrite Ek in R; injection R as R1 R2.
    + subst s'. eapply (@Fin (Err e) ([KTear; KTell Uns] ++ cur_cmds s) (TUp (Err e)) s); auto; try discriminate.
    + subst s'. eapply (@Fin (Err e) (cur_cmds s ++ [KTear; KTell Uns]) (TUp (Err e)) s); auto; try discriminate.
  - destruct (is_torn k s); [inversion R; subst; auto|].
    destruct (set_complete (s_up (log s (TUp Cmp)))) as [u|] eqn:Eu; [|discriminate]. apply sc_some in Eu. destruct Eu as (_ & U1 & U2 & _).
    destruct (set_unsubscribe u) as [u'|] eqn:Eu'; [|discriminate]. apply su_some in Eu'. destruct Eu' as (_ & V1 & V2 & V3).
    set (s2 := with_up (log s (TUp Cmp)) u') in *.
    assert (P : W [] s2) by (apply W_cmp; [auto|congruence|rewrite V2; exact U2]).
    destruct (can_downstream_complete s2) eqn:Ed.
    + assert (J : shut s2 = false -> just s2 Cmp).
      { intros Hs. cbn [just]. specialize (C0 Hs). unfold can_downstream_complete in Ed. rewrite !andb_true_iff in Ed. destruct Ed as [[[E1 E2] E3] E4]. apply Nat.eqb_eq in E2.
        apply (@all_over [] s2); auto; [apply (r_sub C0)|apply (r_closed C0)|]. pose proof (w_nc HW) as Q. change (s_nc s2) with (s_nc s) in E2. rewrite E2 in Q. change (num liv s = 0). lia. }
      destruct Kk as [Ek|Ek]; rewrite Ek in R; injection R as R1 R2.
      * subst s'. eapply (@Fin Cmp ([KTear; KTell Uns] ++ cur_cmds s) (TUp Cmp) s2); auto; try discriminate.
      * subst s'. eapply (@Fin Cmp (cur_cmds s ++ [KTear; KTell Uns]) (TUp Cmp) s2); auto; try discriminate.
    + inversion R; subst s' K. constructor; auto; try (intros; contradiction); try discriminate.
      * intros [Hs _]. destruct (C0 Hs). constructor; auto. intros Hu Hz. unfold can_downstream_complete, queue_empty in Ed. rewrite (w_nq P), Hz, Hu in Ed.
        assert (Dn : is_closed (s_down s2) = false) by (destruct (is_closed (s_down s2)) eqn:Q; auto; destruct (w_down P Q); [congruence|discriminate]). rewrite Dn in Ed. discriminate.
      * cbn. apply TR. exact I.
  - destruct (is_torn k s) eqn:Et; [inversion R; subst; auto|].
    unfold unsubscribe in R. change (is_torn k (log s (TUp Uns))) with (is_torn k s) in R. rewrite Et in R.
    assert (OU : outer_unsubscribed (s_tr s ++ [TUp Uns]) = true) by (rewrite outer_unsubscribed_snoc; apply orb_true_r).
    assert (Last : forall K0, K = K0 -> (forall x, In x K0 -> x = KTear \/ x = KTell Uns \/ exists j, x = KUnsubFrom j) -> In (KTell Uns) K0 -> s_tr s' = s_tr s ++ [TUp Uns] -> V K s').
    { intros K0 -> HK0 Hin Htr.
      constructor; auto.
      - apply forallb_forall. intros x Hx. destruct (HK0 x Hx) as [->|[->|[j ->]]]; auto.
      - intros [_ Q]. assert (Z : closing_in K0 = true) by (apply existsb_exists; exists (KTell Uns); auto). congruence.
      - intros _ m K' Q. assert (Z : In (KTell m) K0) by (rewrite Q; now left). destruct (HK0 _ Z) as [Y|[Y|[j Y]]]; try discriminate. injection Y as ->. cbn [just]. now rewrite Htr.
      - intros _ _. left. now rewrite Htr.
      - intros m Q. assert (Z : In (KTell m) K0) by (destruct K0; [auto|now right]). destruct (HK0 _ Z) as [Y|[Y|[j Y]]]; try discriminate. now injection Y.
      - intros _ _. apply forallb_forall. intros x Hx. destruct (HK0 x Hx) as [->|[->|[j ->]]]; auto.
      - rewrite Htr. apply TR. exact I. }
    destruct Kk as [Ek|Ek]; rewrite Ek in R; injection R as R1 R2.
    + subst s'. eapply (@Last ([KTear; KTell Uns] ++ cur_cmds s)); auto. right. now left.
    + subst s'. eapply (@Last (cur_cmds s ++ [KTear; KTell Uns])); auto. apply in_or_app. right. right. now left.
  - destruct (i_closed (s_inner s i) || negb (i_sub (s_inner s i))) eqn:Ec; inversion R; subst s' K; auto.
    constructor; auto; try discriminate.
    + cbn. cbn in Ha. now rewrite Ha.
    + intros [Hs _]. destruct (C0 Hs). constructor; auto; nope.
    + intros _ Q. nope.
    + cbn [tl]. intros x Q. nope.
    + exact (v_tr H).
Qed.

Lemma init_V : V [] init.
Proof.
  constructor; try (intros; contradiction); try discriminate; auto.
  - now apply init_W.
  - intros _. constructor; cbn; try discriminate; try contradiction.
  - apply always_nil.
Qed.
Lemma no_uns_ok1 : forall h a, no_uns h = true -> In a h -> act_ok1 a = true.
Proof. intros h a H Ha. unfold no_uns in H. rewrite forallb_forall in H. specialize (H a Ha). destruct a; auto. Qed.
Lemma flatten_V : forall fuel h s, no_uns h = true -> flatten down k fuel h init = Fine s -> V [] s.
Proof.
  intros fuel h s Hu R. eapply (@flatten_inv A E down k (fun a _ => act_ok1 a = true) V); eauto using init_V.
  - apply step_V.
  - intros a s0 s1 K1 H Ho Hp. eapply perform_V; eauto.
  - intros a s0 Ha _. eapply no_uns_ok1; eauto.
Qed.
Lemma one_relays : forall fuel h s, no_uns h = true -> flatten down k fuel h init = Fine s -> always (relays down completes) (s_tr s).
Proof. intros fuel h s Hu R. exact (v_tr (flatten_V _ _ Hu R)). Qed.
(** At rest the destination has been told of the completion. *)
Lemma one_done : forall fuel h s, no_uns h = true -> flatten down k fuel h init = Fine s -> open down (s_tr s) -> ~ completes (s_tr s).
Proof.
  intros fuel h s Hu R Ho Q. pose proof (flatten_V _ _ Hu R) as H. assert (HW := v_w H). assert (M := w_mir HW).
  apply (m_shut M) in Ho. assert (C : Cr [] s) by (apply (v_cr H); split; auto).
  assert (Hz : num liv s = 0).
  { apply cnt_none. intros i Hi. destruct (liv (s_inner s i)) eqn:Z; auto. exfalso. unfold liv in Z. rewrite !andb_true_iff in Z. destruct Z as [[Z1 Z2] Z3].
    unfold completes in Q. destruct k eqn:Ek; [contradiction| |].
    - assert (Y : S i = s_arrived s) by (apply (w_latest HW); auto; unfold ope; now rewrite Z1, Z3).
      destruct Q as [_ Q]. rewrite <- (m_arr M) in Q. specialize (Q i Y). rewrite <- (m_cmp M) in Q. rewrite Q in Z2. discriminate.
    - destruct Q as [_ Q]. rewrite (m_sub M) in Z1. specialize (Q i Z1). rewrite <- (m_cmp M) in Q. rewrite Q in Z2. discriminate. }
  assert (Hc : is_completed (s_up s) = true) by (rewrite (m_up M); unfold completes in Q; destruct k; [contradiction| |]; apply Q).
  apply (r_done C Hc). pose proof (w_nc HW) as Y. change (nic []) with 0 in Y. change (length (pend [])) with 0 in Y. lia.
Qed.
End One2.
