(** Proofs about CombSubModel.v. *)
From Verif Require Import Base SubscrModel LifeModel LifeProofs CombModel CombSpec CombProofs CombZip CombSubModel CombSubSpec.
Set Implicit Arguments.

(** *** What a run of the observable was given. *)
Section Sent.
Variables A1 A2 E : Type.
Notation event := (either2 A1 A2 E).
Lemma of_app : forall i (p q : list event), of i (p ++ q) = of i p ++ of i q.
Proof. intros. apply filter_app. Qed.
Lemma times_app : forall i p q, times i (p ++ q) = times i p + times i q.
Proof. induction p as [|j p IH]; intros; cbn; auto. rewrite IH. destruct (side_eqb i j); lia. Qed.
Lemma side_refl : forall i, side_eqb i i = true. Proof. now intros []. Qed.
Lemma side_eq : forall i j, side_eqb i j = true -> i = j. Proof. now intros [] []. Qed.
Lemma src_uns : forall i, src (uns_of A1 A2 E i) = i. Proof. now intros []. Qed.
Lemma of_uns : forall i, of i [uns_of A1 A2 E i] = [uns_of A1 A2 E i]. Proof. now intros []. Qed.
Lemma of_uns_not : forall i j, side_eqb j i = false -> of j [uns_of A1 A2 E i] = []. Proof. now intros [] []. Qed.
Lemma off_times : forall i l, existsb (side_eqb i) l = negb (times i l =? 0).
Proof. induction l as [|j l IH]; cbn; auto. rewrite IH. destruct (side_eqb i j); auto. Qed.

Lemma on1_of : forall (p : list event), on1 (of One p) = on1 p.
Proof. induction p as [|[n|n] p IH]; cbn; auto. now f_equal. Qed.
Lemma on2_of : forall (p : list event), on2 (of Two p) = on2 p.
Proof. induction p as [|[n|n] p IH]; cbn; auto. now f_equal. Qed.
Lemma contract_uns : forall A (l l' : list (ncall A E)) c g m, contract c g (l ++ l') -> contract c g (l ++ repeat Uns m).
Proof.
  induction l as [|n l IH]; intros l' c g m H; cbn in *.
  - clear H. revert c g. induction m; intros; cbn; auto.
  - destruct n; try destruct H as [H1 H]; try split; auto; eapply IH; eauto.
Qed.
Lemma on1_uns : forall m, on1 (repeat (uns_of A1 A2 E One) m) = repeat Uns m.
Proof. induction m; cbn; auto. now f_equal. Qed.
Lemma on2_uns : forall m, on2 (repeat (uns_of A1 A2 E Two) m) = repeat Uns m.
Proof. induction m; cbn; auto. now f_equal. Qed.

(** Every source called what it was to call up to some point, then only [unsubscribe]. *)
Definition cut (total p : list event) (i : side) : Prop :=
  exists pre post m, of i p = pre ++ repeat (uns_of A1 A2 E i) m /\ total = pre ++ post.
Lemma cut_lawful : forall t p, (forall i, cut (t i) p i) ->
  contract false false (on1 (t One)) -> contract false false (on2 (t Two)) -> lawful p.
Proof.
  intros t p H L1 L2. split.
  - destruct (H One) as (pre & post & m & H1 & H2). rewrite <- on1_of, H1, on1_app, on1_uns.
    rewrite H2, on1_app in L1. eapply contract_uns; eauto.
  - destruct (H Two) as (pre & post & m & H1 & H2). rewrite <- on2_of, H1, on2_app, on2_uns.
    rewrite H2, on2_app in L2. eapply contract_uns; eauto.
Qed.
End Sent.

Section Run.
Variables A1 A2 E B St : Type.
Notation event := (either2 A1 A2 E).
Variable down : list (ncall B E) -> bool.
Variable looks : bool.
Variable answer : list event -> event -> list (ncall B E).
Variable next : event -> St -> told B E -> option (St * told B E).
Variable start : St.
Hypothesis RUN : forall h, lawful (map snd h) ->
  exists s, comb_run next h start t_new = Some (s, answers down looks answer [] t_new h).
Hypothesis ANS : forall p i, answer p (uns_of A1 A2 E i) = [] \/ answer p (uns_of A1 A2 E i) = [Uns].
Notation cobs := (cobs A1 A2 E B St).
Notation uns := (uns_of A1 A2 E).
Variable total : side -> list event.
Hypothesis L1 : contract false false (on1 (total One)).
Hypothesis L2 : contract false false (on2 (total Two)).
(** The sources that have not been subscribed to yet. *)
Variable fresh : side -> bool.

Lemma comb_run_snoc : forall h d e s w, comb_run next (h ++ [(d, e)]) s w =
  match comb_run next h s w with
  | Some (s', w') => if t_shut w' && negb d then Some (s', w') else next e s' w'
  | None => None
  end.
Proof.
  induction h as [|[d' e'] h IH]; intros d e s w; cbn.
  - destruct (t_shut w && negb d); auto. destruct (next e s w) as [[]|]; auto.
  - destruct (t_shut w && negb d'); auto. destruct (next e' s w) as [[]|]; auto.
Qed.
Lemma answers_snoc : forall h d e p w, answers down looks answer p w (h ++ [(d, e)]) =
  answered down looks answer (p ++ map snd h) (answers down looks answer p w h) d e.
Proof.
  induction h as [|[d' e'] h IH]; intros; cbn; [now rewrite app_nil_r|]. rewrite IH, <- app_assoc. reflexivity.
Qed.

(** *** The calls heard, with those in the queue [q]; [l] is still to come. *)
Definition HI (c : cobs) (q l : list event) (i : side) : Prop :=
  exists pre post m, of i (map snd (c_heard c) ++ q) = pre ++ repeat (uns i) m /\ total i = pre ++ post /\
    (can i c = true -> m = 0 /\ post = of i l) /\ (fresh i = true -> pre = [] /\ m = 0).
Lemma HI_cut : forall c q l i, HI c q l i -> cut (total i) (map snd (c_heard c) ++ q) i.
Proof. intros c q l i (pre & post & m & H1 & H2 & _ & _). exists pre, post, m. auto. Qed.
Lemma HI_lawful : forall c q l, (forall i, HI c q l i) -> lawful (map snd (c_heard c) ++ q).
Proof. intros c q l H. apply cut_lawful with total; auto. intros i. eapply HI_cut; eauto. Qed.

(** Fewer sources may call. *)
Lemma HI_less : forall c c' q l i, HI c q l i -> c_heard c' = c_heard c ->
  (can i c' = true -> can i c = true) -> HI c' q l i.
Proof. intros c c' q l i (pre & post & m & H1 & H2 & H3 & H4) Hh Hc. exists pre, post, m. rewrite Hh. auto 6. Qed.
(** A source that may not call unsubscribes. *)
Lemma HI_uns : forall c q l i j, HI c q l i -> can j c = false -> fresh j = false -> HI c (q ++ [uns j]) l i.
Proof.
  intros c q l i j (pre & post & m & H1 & H2 & H3 & H4) Hc Hf. destruct (side_eqb i j) eqn:Hij.
  - apply side_eq in Hij. subst j. exists pre, post, (m + 1). rewrite app_assoc, of_app, H1, of_uns, repeat_app, <- app_assoc.
    split; auto. split; auto. split; congruence.
  - exists pre, post, m. rewrite app_assoc, of_app, of_uns_not, app_nil_r by auto. auto 6.
Qed.
(** A call that comes. *)
Lemma HI_call : forall c q l i e, HI c q (e :: l) i -> can (src e) c = true -> fresh (src e) = false -> HI c (q ++ [e]) l i.
Proof.
  intros c q l i e (pre & post & m & H1 & H2 & H3' & H4) Hc Hf.
  assert (Hof : forall p, of i (e :: p) = of i [e] ++ of i p) by (intros; now rewrite <- of_app).
  destruct (side_eqb i (src e)) eqn:Hij.
  - pose proof (side_eq _ _ Hij) as ->. destruct (H3' Hc) as [-> ->]. exists (pre ++ of (src e) [e]), (of (src e) l), 0.
    cbn [repeat] in *. rewrite app_assoc, of_app, H1, !app_nil_r. split; auto. split; [rewrite H2, Hof, app_assoc; auto|split; [auto|congruence]].
  - assert (Hn : of i [e] = []) by (cbn; now rewrite Hij).
    exists pre, post, m. rewrite app_assoc, of_app, Hn, app_nil_r. split; auto. split; auto. split; [|auto]. intros H. destruct (H3' H) as [-> ->].
    split; auto. rewrite Hof, Hn. reflexivity.
Qed.
Lemma HI_skip : forall c q l i e, HI c q (e :: l) i -> can (src e) c = false -> HI c q l i.
Proof.
  intros c q l i e (pre & post & m & H1 & H2 & H3 & H4) Hc. exists pre, post, m. split; auto. split; auto. split; [|auto].
  intros H. destruct (H3 H) as [-> ->]. split; auto. cbn. destruct (side_eqb i (src e)) eqn:Hij; auto.
  apply side_eq in Hij. subst i. congruence.
Qed.

(** *** What only grows while source [b] calls. *)
Record grows (b : side) (c c' : cobs) : Prop := mkG {
  g_busy : c_alive c' b = c_alive c b;
  g_alive : forall i, c_alive c' i = true -> c_alive c i = true;
  g_closed : c_closed c = true -> c_closed c' = true;
  g_offs : c_closed c' = false -> c_offs c' = c_offs c;
  g_handle : c_handle c' = c_handle c;
  g_gone : c_gone c' = c_gone c
}.
Lemma grows_refl : forall b c, grows b c c. Proof. split; auto. Qed.
Lemma grows_trans : forall b c1 c2 c3, grows b c1 c2 -> grows b c2 c3 -> grows b c1 c3.
Proof.
  intros b0 c1 c2 c3 [z a b o h g] [z' a' b' o' h' g']. split; auto; try congruence.
  intros H. rewrite o', o; auto. destruct (c_closed c2); auto. rewrite b' in H; auto.
Qed.

(** *** The invariant while the combining subscriber is in use, called by source [b]. [g]: [S] has
    been made a finalizer of the destination. [r]: subscriptions of sources that are neither held
    nor let go yet. *)
Record LK (g : bool) (r : list side) (b : side) (c : cobs) (q l : list event) : Prop := mkLK {
  k_hi : forall i, HI c q l i;
  k_run : comb_run next (c_heard c) start t_new = Some (c_s c, c_w c);
  k_times : forall i, times i (c_held c) + times i (c_offs c) + times i r = 1;
  k_held : c_closed c = true -> c_held c = [];
  k_reg : c_closed c = false -> c_reg c = g;
  k_off : forall i, c_alive c i = true -> was_off i c = true -> i = b;
  k_gone : c_gone c = false;
  k_handle : g = false -> c_handle c = false;
  k_open : g = false -> c_closed c = false;
  k_fresh : forall i, c_alive c i = true -> fresh i = false
}.

Lemma off_app : forall i (c : cobs) j, was_off i (with_off j c) = was_off i c || side_eqb i j.
Proof. intros. unfold was_off. cbn. rewrite existsb_app. cbn. now rewrite orb_false_r. Qed.

Lemma LK_release : forall g r b prompt c q l i, c_closed c = true -> LK g (i :: r) b c q l ->
  let cq := release_locked b prompt (c, q) i in
  LK g r b (fst cq) (snd cq) l /\ grows b c (fst cq) /\ c_closed (fst cq) = true /\ c_w (fst cq) = c_w c.
Proof.
  intros g r b prompt c q l i Hc [K1 K2 K3 K4 K5 K6 K7 K8 K9 KF] cq.
  assert (HT : forall j, times j (c_held c) + times j (c_offs c ++ [i]) + times j r = 1).
  { intros j. rewrite times_app. specialize (K3 j). cbn in *. lia. }
  assert (Hcan : forall j, can j (with_off i c) = true -> can j c = true /\ side_eqb j i = false).
  { intros j H. unfold can in *. rewrite off_app in H. cbn in H. destruct (c_alive c j), (was_off j c), (side_eqb j i); cbn in *; auto. }
  assert (Hno : can i (with_off i c) = false).
  { destruct (can i (with_off i c)) eqn:H; auto. destruct (Hcan i H) as [_ X]. now rewrite side_refl in X. }
  assert (HO : forall j, HI (with_off i c) q l j) by (intros j; eapply HI_less; eauto; intros H; now apply Hcan).
  assert (HF : negb (can i c) = false -> fresh i = false).
  { intros H. apply KF. unfold can in H. destruct (c_alive c i); auto. }
  unfold cq, release_locked. clear cq. destruct (negb (can i c)) eqn:Hi; [|destruct (side_eqb b i) eqn:Hb].
  - cbn [fst snd]. split; [|split; [split; auto; intros; cbn in *; congruence|auto]]. split; auto.
    intros j H1 H2. rewrite off_app in H2. apply orb_prop in H2. destruct H2 as [H2|H2]; [now apply K6|].
    apply side_eq in H2. subst j. apply K6; auto. unfold can in Hi. cbn in H1. rewrite H1 in Hi. cbn in Hi. now rewrite negb_involutive in Hi.
  - apply side_eq in Hb. subst i. cbn [fst snd]. split; [|split; [split; auto; intros; cbn in *; congruence|auto]]. split; auto.
    + intros j. destruct prompt; auto. apply HI_uns; auto.
    + intros j H1 H2. rewrite off_app in H2. apply orb_prop in H2. destruct H2 as [H2|H2]; [now apply K6|]. now apply side_eq.
  - assert (Hb' : side_eqb i b = false) by (destruct i, b; auto).
    cbn [fst snd]. split; [|split; [split; auto; cbn; [now rewrite Hb'| |congruence]|auto]].
    2: intros j; destruct (side_eqb i j); [discriminate|auto].
    assert (HA : forall j, HI (with_alive i false (with_off i c)) q l j).
    { intros j. eapply HI_less; [apply HO|reflexivity|]. unfold can. cbn. destruct (side_eqb i j); [discriminate|auto]. }
    assert (HN : can i (with_alive i false (with_off i c)) = false) by (unfold can; cbn; now rewrite side_refl).
    split; auto.
    + intros j. replace [uns i; uns i] with ([uns i] ++ [uns i]) by reflexivity. rewrite app_assoc. apply HI_uns; auto. apply HI_uns; auto.
    + cbn. intros j H1 H2. destruct (side_eqb i j) eqn:Hj; [discriminate|]. unfold was_off in H2. cbn in H2. rewrite existsb_app in H2. cbn in H2.
      rewrite orb_false_r in H2. apply orb_prop in H2. destruct H2 as [H2|H2]; [now apply K6|]. apply side_eq in H2. subst j. now rewrite side_refl in Hj.
    + cbn. intros j. destruct (side_eqb i j); [discriminate|apply KF].
Qed.

Lemma LK_releases : forall g r b prompt l rest c q, c_closed c = true -> LK g (rest ++ r) b c q l ->
  let cq := fold_left (release_locked b prompt) rest (c, q) in
  LK g r b (fst cq) (snd cq) l /\ grows b c (fst cq) /\ c_closed (fst cq) = true /\ c_w (fst cq) = c_w c.
Proof.
  induction rest as [|i rest IH]; intros c q Hc H; cbn [fold_left].
  - split; auto. split; [apply grows_refl|auto].
  - destruct (@LK_release g (rest ++ r) b prompt c q l i Hc H) as (K & G & C & W).
    destruct (release_locked b prompt (c, q) i) as [c1 q1]. cbn [fst snd] in *. destruct (IH c1 q1 C K) as (K' & G' & C' & W').
    split; auto. split; [eapply grows_trans; eauto|]. split; auto. congruence.
Qed.

Lemma LK_unsub : forall g r b prompt c q l, LK g r b c q l -> g = true ->
  let cq := unsubscribe_locked b prompt (c, q) in
  LK g r b (fst cq) (snd cq) l /\ grows b c (fst cq) /\ c_closed (fst cq) = true /\ c_w (fst cq) = c_w c /\
  (c_closed c = true -> cq = (c, q)).
Proof.
  intros g r b prompt c q l K Hg. unfold unsubscribe_locked. destruct (c_closed c) eqn:Hc; cbn zeta.
  - cbn [fst snd]. split; auto. split; [apply grows_refl|auto].
  - destruct (@LK_releases g r b prompt l (c_held c) (with_held true [] c) q) as (K' & G' & C' & W').
    + reflexivity.
    + destruct K as [K1 K2 K3 K4 K5 K6 K7 K8 K9 KF]. split; auto; cbn; try discriminate; try congruence. intros i. rewrite times_app. specialize (K3 i). lia.
    + split; auto. split; [|split; [auto|split; [auto|discriminate]]]. destruct G' as [a0 a1 a2 a3 a4 a5]. cbn in *. split; auto; congruence.
Qed.

Lemma LK_closing : forall g r b prompt c q l, LK g r b c q l ->
  let cq := closing b prompt (c, q) in
  LK g r b (fst cq) (snd cq) l /\ grows b c (fst cq) /\ c_w (fst cq) = c_w c /\
  (g = true -> t_shut (c_w c) = true -> c_closed (fst cq) = true) /\
  (c_closed c = true -> snd cq = q) /\ (c_closed (fst cq) = false -> snd cq = q).
Proof.
  intros g r b prompt c q l K. unfold closing. destruct (t_shut (c_w c)) eqn:Hs, (c_reg c) eqn:Hr; cbn [andb]; cbn zeta.
  - destruct (c_closed c) eqn:Hc.
    + unfold unsubscribe_locked. cbn [c_closed with_reg]. rewrite Hc. cbn [fst snd].
      split; [|split; [|split; [auto|split; [auto|split; [auto|cbn; congruence]]]]].
      * destruct K as [K1 K2 K3 K4 K5 K6 K7 K8 K9 KF]. split; auto. cbn. congruence.
      * split; auto.
    + assert (K' : LK g r b c q l) by exact K. destruct K as [K1 K2 K3 K4 K5 K6 K7 K8 K9 KF].
      unfold unsubscribe_locked. cbn [c_closed with_reg]. rewrite Hc.
      destruct (@LK_releases g r b prompt l (c_held c) (with_held true [] (with_reg false c)) q) as (K'' & G' & C' & W').
      * reflexivity.
      * rewrite (K5 Hc) in Hr. split; auto; cbn; try discriminate; try congruence. intros i. rewrite times_app. specialize (K3 i). lia.
      * cbn [c_held with_reg]. split; auto. split; [|split; [auto|split; [auto|split; [discriminate|congruence]]]].
        destruct G' as [a0 a1 a2 a3 a4 a5]. cbn in *. split; auto; congruence.
  - cbn [fst snd]. split; auto. split; [apply grows_refl|]. split; auto. split; [|auto].
    intros Hg _. destruct (c_closed c) eqn:Hc; auto. rewrite (k_reg K Hc) in Hr. congruence.
  - cbn [fst snd]. split; auto. split; [apply grows_refl|]. split; auto. split; [congruence|auto].
  - cbn [fst snd]. split; auto. split; [apply grows_refl|]. split; auto. split; [congruence|auto].
Qed.

Lemma LK_inside : forall g r b prompt l ins c q, LK g r b c q (ins_calls ins ++ l) ->
  let cq := fold_left (inside_step b prompt) ins (c, q) in
  LK g r b (fst cq) (snd cq) l /\ grows b c (fst cq) /\ c_w (fst cq) = c_w c.
Proof.
  induction ins as [|x ins IH]; intros c q K; cbn [fold_left].
  - split; auto. split; [apply grows_refl|auto].
  - assert (X : let cq := inside_step b prompt (c, q) x in
        LK g r b (fst cq) (snd cq) (ins_calls ins ++ l) /\ grows b c (fst cq) /\ c_w (fst cq) = c_w c).
    { destruct x as [e|]; cbn [inside_step fst snd].
      - destruct (can (src e) c) eqn:Hc; cbn [fst snd]; (split; [|split; [apply grows_refl|auto]]);
          destruct K as [K1 K2 K3 K4 K5 K6 K7 K8 K9 KF]; split; auto; intros i; [eapply HI_call|eapply HI_skip]; eauto; try apply K1. apply KF. unfold can in Hc. now apply andb_prop in Hc.
      - destruct (c_handle c) eqn:Hh.
        + destruct (LK_unsub prompt K) as (K' & G' & _ & W' & _); auto. destruct g; auto. rewrite (k_handle K) in Hh; auto.
        + cbn [fst snd]. split; auto. split; [apply grows_refl|auto]. }
    cbn zeta in X. destruct (inside_step b prompt (c, q) x) as [c1 q1]. cbn [fst snd] in X. destruct X as (K1 & G1 & W1).
    destruct (IH c1 q1 K1) as (K2 & G2 & W2). split; auto. split; [eapply grows_trans; eauto|congruence].
Qed.

(** One call of the combining subscriber: the first in the queue. *)
Lemma LK_one : forall g r b prompt d e ins c q l, LK g r b c (e :: q) (ins_calls ins ++ l) ->
  d = true \/ t_shut (c_w c) = false ->
  exists c' q', one next b prompt d e ins (c, q) = Some (c', q') /\
    LK g r b c' q' l /\ grows b c c' /\
    c_w c' = answered down looks answer (map snd (c_heard c)) (c_w c) d e /\
    (g = true -> t_shut (c_w c') = true -> c_closed c' = true) /\
    (ins = [] -> (c_closed c = true -> q' = q) /\ (c_closed c' = false -> q' = q)).
Proof.
  intros g r b prompt d e ins c q l K Hd.
  assert (HL : lawful (map snd (c_heard c ++ [(d, e)]))).
  { rewrite map_app. cbn. pose proof (HI_lawful (k_hi K)) as H. replace (e :: q) with ([e] ++ q) in H by reflexivity.
    rewrite app_assoc in H. eapply lawful_pre; eauto. }
  destruct (RUN (c_heard c ++ [(d, e)]) HL) as (s' & Hs'). rewrite comb_run_snoc, (k_run K) in Hs'.
  replace (t_shut (c_w c) && negb d) with false in Hs' by (destruct Hd as [->| ->]; destruct (t_shut (c_w c)); auto).
  unfold one. rewrite Hs'. rewrite answers_snoc in Hs'. cbn [app] in Hs'.
  assert (HLp : lawful (map snd (c_heard c))) by (rewrite map_app in HL; eapply lawful_pre; eauto).
  destruct (RUN (c_heard c) HLp) as (s0 & Hs0). rewrite (k_run K) in Hs0. injection Hs0 as Hs0 Hw0. rewrite answers_snoc, <- Hw0. cbn [app].
  rewrite <- Hw0 in Hs'.
  set (w' := answered down looks answer (map snd (c_heard c)) (c_w c) d e) in *.
  assert (K0 : LK g r b (with_next s' w' (d, e) c) q (ins_calls ins ++ l)).
  { destruct K as [K1 K2 K3 K4 K5 K6 K7 K8 K9 KF]. split; auto.
    - intros i. destruct (K1 i) as (pre & post & m & X1 & X2 & X3). exists pre, post, m. cbn. rewrite map_app, <- app_assoc. auto.
    - cbn. rewrite comb_run_snoc, K2. replace (t_shut (c_w c) && negb d) with false by (destruct Hd as [->| ->]; destruct (t_shut (c_w c)); auto).
      exact Hs'. }
  destruct (@LK_inside g r b prompt l ins _ q K0) as (K1 & G1 & W1).
  destruct (fold_left (inside_step b prompt) ins (with_next s' w' (d, e) c, q)) as [c1 q1] eqn:Hf. cbn [fst snd] in *.
  destruct (LK_closing prompt K1) as (K2 & G2 & W2 & C2 & Q2 & Q3).
  destruct (closing b prompt (c1, q1)) as [c2 q2]. cbn [fst snd] in *. exists c2, q2. split; auto. split; auto.
  split; [|split; [cbn in W1; congruence|split]].
  - eapply grows_trans; [|exact G2]. destruct G1 as [a0 a1 a2 a3 a4 a5]. split; auto.
  - intros Hg Hs. apply C2; auto. congruence.
  - intros ->. cbn in Hf. injection Hf as <- <-. split; auto.
Qed.

Lemma LK_ones : forall g r b prompt l rest c q, LK g r b c (rest ++ q) l ->
  (g = true -> t_shut (c_w c) = true -> c_closed c = true) ->
  exists c' q', ones next b prompt rest (c, q) = Some (c', q') /\
    LK g r b c' q' l /\ grows b c c' /\ (g = true -> t_shut (c_w c') = true -> c_closed c' = true) /\
    (c_closed c = true -> q' = q) /\ (c_closed c' = false -> q' = q).
Proof.
  induction rest as [|e rest IH]; intros c q K Hs.
  - exists c, q. split; [reflexivity|]. split; auto. split; [apply grows_refl|auto].
  - cbn [ones]. cbn [app] in K.
    assert (K' : LK g r b c (e :: (rest ++ q)) (ins_calls [] ++ l)) by exact K.
    (* the queue of [one] is only what comes after *)
    destruct (@LK_one g r b prompt true e [] c (rest ++ q) l K' (or_introl eq_refl)) as (c1 & q1 & H1 & K1 & G1 & W1 & S1 & Q1).
    destruct (Q1 eq_refl) as [Q1a Q1b].
    (* the same call with queue [q] *)
    unfold one in *. destruct (next e (c_s c) (c_w c)) as [[s' w']|]; [|discriminate]. cbn [fold_left] in *.
    assert (X : exists x, closing b prompt (with_next s' w' (true, e) c, q) = (c1, q ++ x) /\ q1 = (rest ++ q) ++ x).
    { injection H1 as H1. clear - H1. unfold closing in *. 
      assert (R : forall l (c : cobs) q q2 c1 q1, fold_left (release_locked b prompt) l (c, q2) = (c1, q1) ->
                 exists x, fold_left (release_locked b prompt) l (c, q) = (c1, q ++ x) /\ q1 = q2 ++ x).
      { clear. induction l as [|i l IH]; intros c q q2 c1 q1 H; cbn [fold_left] in *.
        - injection H as <- <-. exists []. now rewrite !app_nil_r.
        - unfold release_locked at 2 in H. unfold release_locked at 2.
          destruct (negb (can i c)); [eauto|]. destruct (side_eqb b i).
          + destruct prompt; [|eauto]. destruct (IH _ (q ++ [uns i]) _ _ _ H) as (x & H1 & H2). exists ([uns i] ++ x). now rewrite !app_assoc.
          + destruct (IH _ (q ++ [uns i; uns i]) _ _ _ H) as (x & H1 & H2). exists ([uns i; uns i] ++ x). now rewrite !app_assoc. }
      destruct (t_shut _ && _).
      - unfold unsubscribe_locked in *. destruct (c_closed _); [|eauto]. injection H1 as <- <-. exists []. now rewrite !app_nil_r.
      - injection H1 as <- <-. exists []. now rewrite !app_nil_r. }
    destruct X as (x & -> & ->).
    assert (K1' : LK g r b c1 (rest ++ (q ++ x)) l) by (now rewrite app_assoc).
    destruct (IH c1 (q ++ x) K1' S1) as (c2 & q2 & H2 & K2 & G2 & S2 & Q2 & Q3).
    exists c2, q2. split; auto. split; auto. split; [eapply grows_trans; eauto|]. split; auto. split.
    + intros Hc. rewrite Q2 by now apply (g_closed G1). specialize (Q1a Hc).
      rewrite <- (app_nil_r (rest ++ q)) in Q1a at 2. apply app_inv_head in Q1a. subst x. apply app_nil_r.
    + intros Hc. rewrite (Q3 Hc). assert (Hc1 : c_closed c1 = false) by (destruct (c_closed c1) eqn:X; auto; rewrite (g_closed G2 X) in Hc; discriminate).
      specialize (Q1b Hc1). rewrite <- (app_nil_r (rest ++ q)) in Q1b at 2. apply app_inv_head in Q1b. subst x. apply app_nil_r.
Qed.

Lemma LK_rounds : forall g r b prompt l n c q, LK g r b c q l ->
  (g = true -> t_shut (c_w c) = true -> c_closed c = true) ->
  exists c', rounds next (S (S (S n))) b prompt (c, q) = Some (c', []) /\
    LK g r b c' [] l /\ grows b c c' /\ (g = true -> t_shut (c_w c') = true -> c_closed c' = true).
Proof.
  intros g r b prompt l n c q K Hs.
  assert (R : forall m c q, LK g r b c q l -> (g = true -> t_shut (c_w c) = true -> c_closed c = true) -> q = [] \/ c_closed c = true ->
    exists c', rounds next (S (S m)) b prompt (c, q) = Some (c', []) /\
      LK g r b c' [] l /\ grows b c c' /\ (g = true -> t_shut (c_w c') = true -> c_closed c' = true)).
  { clear c q K Hs. intros m c q K Hs Hq. destruct q as [|e q].
    - exists c. split; [reflexivity|]. split; auto. split; [apply grows_refl|auto].
    - destruct Hq as [Hq|Hq]; [discriminate|]. rewrite <- (app_nil_r (e :: q)) in K.
      destruct (@LK_ones g r b prompt l (e :: q) c [] K Hs) as (c' & q' & H1 & K1 & G1 & S1 & Q1 & _). rewrite (Q1 Hq) in *.
      exists c'. split; [|auto]. remember (S m) as k eqn:Hk. cbn [rounds fst snd]. rewrite H1. now rewrite Hk. }
  destruct q as [|e q].
  - exists c. split; [reflexivity|]. split; auto. split; [apply grows_refl|auto].
  - rewrite <- (app_nil_r (e :: q)) in K.
    destruct (@LK_ones g r b prompt l (e :: q) c [] K Hs) as (c' & q' & H1 & K1 & G1 & S1 & _ & Q1).
    destruct (R n c' q' K1 S1) as (c2 & H2 & K2 & G2 & S2); [destruct (c_closed c'); auto|].
    exists c2. split; [|split; [auto|split; [eapply grows_trans; eauto|auto]]].
    remember (S (S n)) as k eqn:Hk. cbn [rounds fst snd]. rewrite H1. subst k. exact H2.
Qed.

Lemma LK_ignored : forall g r b l ins c, LK g r b c [] (ins_calls ins ++ l) -> t_shut (c_w c) = true ->
  let c' := fold_left (@ignored A1 A2 E B St) ins c in
  LK g r b c' [] l /\ grows b c c' /\ c_w c' = c_w c.
Proof.
  induction ins as [|x ins IH]; intros c K Hs; cbn [fold_left].
  - split; auto. split; [apply grows_refl|auto].
  - assert (X : LK g r b (ignored c x) [] (ins_calls ins ++ l) /\ grows b c (ignored c x) /\ c_w (ignored c x) = c_w c).
    { destruct x as [e|]; cbn [ignored].
      - destruct (can (src e) c) eqn:Hc; (split; [|split; [split; auto|auto]]); destruct K as [K1 K2 K3 K4 K5 K6 K7 K8 K9 KF]; split; auto.
        + intros i. destruct (@HI_call c [] (ins_calls ins ++ l) i e (K1 i) Hc) as (pre & post & m & X1 & X2 & X3); [apply KF; unfold can in Hc; now apply andb_prop in Hc|].
          exists pre, post, m. cbn. rewrite map_app, app_nil_r. auto.
        + cbn. rewrite comb_run_snoc, K2, Hs. reflexivity.
        + intros i. eapply HI_skip; eauto. apply K1.
      - split; auto. split; [apply grows_refl|auto]. }
    destruct X as (K1 & G1 & W1). destruct (IH _ K1) as (K2 & G2 & W2); [congruence|].
    split; auto. split; [eapply grows_trans; eauto|congruence].
Qed.

Lemma LK_shared : forall g r b prompt e ins c l, LK g r b c [e] (ins_calls ins ++ l) ->
  (g = true -> t_shut (c_w c) = true -> c_closed c = true) ->
  exists c', shared_next next b prompt e ins c = Some c' /\
    LK g r b c' [] l /\ grows b c c' /\ (g = true -> t_shut (c_w c') = true -> c_closed c' = true) /\
    (ins = [] -> c_closed c = true -> c_w c' = answered down looks answer (map snd (c_heard c)) (c_w c) false e).
Proof.
  intros g r b prompt e ins c l K Hs. unfold shared_next. destruct (t_shut (c_w c)) eqn:Hw.
  - assert (K0 : LK g r b (with_next (c_s c) (c_w c) (false, e) c) [] (ins_calls ins ++ l)).
    { destruct K as [K1 K2 K3 K4 K5 K6 K7 K8 K9 KF]. split; auto.
      - intros i. destruct (K1 i) as (pre & post & m & X1 & X2 & X3). exists pre, post, m. cbn. rewrite map_app, app_nil_r. auto.
      - cbn. now rewrite comb_run_snoc, K2, Hw. }
    destruct (@LK_ignored g r b l ins _ K0 Hw) as (K1 & G1 & W1). eexists. split; [reflexivity|]. split; [exact K1|].
    split; [destruct G1 as [a0 a1 a2 a3 a4 a5]; split; auto|]. split.
    + intros Hg _. apply (g_closed G1). cbn. auto.
    + intros -> _. cbn. unfold answered. rewrite Hw. destruct (error_in e); auto.
  - destruct (@LK_one g r b prompt false e ins c [] l K (or_intror Hw)) as (c1 & q1 & -> & K1 & G1 & W1 & S1 & Q1).
    destruct (@LK_rounds g r b prompt l 7 c1 q1 K1 S1) as (c2 & H2 & K2 & G2 & S2). unfold max_rounds. rewrite H2.
    exists c2. split; auto. split; auto. split; [eapply grows_trans; eauto|]. split; auto.
    intros Hi Hc. destruct (Q1 Hi) as [Qa _]. rewrite (Qa Hc) in H2. cbn in H2. injection H2 as <-. exact W1.
Qed.

(** *** Not in use. *)
Lemma LK_alive : forall g r b i c q l, LK g r b c q l -> LK g r b (with_alive i false c) q l.
Proof.
  intros g r b i c q l [K1 K2 K3 K4 K5 K6 K7 K8 K9 KF]. split; auto.
  - intros j. eapply HI_less; [apply K1|reflexivity|]. unfold can. cbn. destruct (side_eqb i j); [discriminate|auto].
  - cbn. intros j. destruct (side_eqb i j); [discriminate|apply K6].
  - cbn. intros j. destruct (side_eqb i j); [discriminate|apply KF].
Qed.
(** No source is being let go of. *)
Definition calm (c : cobs) : Prop := forall i, c_alive c i = true -> was_off i c = false.
Lemma LK_calm : forall g r b b' c q l, LK g r b c q l -> calm c -> LK g r b' c q l.
Proof. intros g r b b' c q l [K1 K2 K3 K4 K5 K6 K7 K8 K9 KF] H. split; auto. intros i A O. rewrite H in O; auto. discriminate. Qed.
Lemma calm_dead : forall g r i c q l, LK g r i c q l -> c_alive c i = false -> calm c.
Proof.
  intros g r i c q l K H j A. destruct (was_off j c) eqn:O; auto. rewrite (k_off K j A O) in A. congruence.
Qed.
Lemma uns_answered : forall p w i, answered down looks answer p w false (uns i) = w \/
  (t_shut w = false /\ answered down looks answer p w false (uns i) = tell down Uns w).
Proof.
  intros p w i. unfold answered. destruct (t_shut w) eqn:Hw.
  - left. destruct i; auto.
  - destruct (ANS p i) as [->| ->]; cbn; auto. right. unfold give. rewrite Hw, andb_false_r. auto.
Qed.
(** What the destination is told while [S] is closed. *)
Definition uns_only (w w' : told B E) : Prop := w' = w \/ (t_shut w = false /\ w' = tell down Uns w).
Lemma uns_only_trans : forall w1 w2 w3, uns_only w1 w2 -> uns_only w2 w3 -> uns_only w1 w3.
Proof.
  unfold uns_only. intros w1 w2 w3 [->|[H1 ->]] [->|[H2 ->]]; auto. exfalso. cbn in H2. rewrite orb_true_r in H2. discriminate.
Qed.

Lemma drop_ok : forall g r i c l, LK g r i c [] l -> c_alive c i = true ->
  (g = true -> t_shut (c_w c) = true -> c_closed c = true) ->
  exists c', (forall last, drop_either down next last i c = Some (if last then free down c' else c')) /\
    LK g r i c' [] l /\ grows i (with_alive i false c) c' /\ (g = true -> t_shut (c_w c') = true -> c_closed c' = true) /\
    (c_closed c = true -> uns_only (c_w c) (c_w c')).
Proof.
  intros g r i c l K Ha Hs. unfold drop_either. rewrite Ha. cbn [negb].
  pose proof (@LK_alive g r i i c [] l K) as K0. destruct (t_shut (c_w c)) eqn:Hw.
  - exists (with_alive i false c). split; auto. split; auto. split; [apply grows_refl|]. split; [auto|]. intros _. now left.
  - assert (K1 : LK g r i (with_alive i false c) [uns i] (ins_calls [] ++ l)).
    { destruct K0 as [K1 K2 K3 K4 K5 K6 K7 K8 K9 KF]. split; auto. intros j. apply (@HI_uns _ [] l j i (K1 j)); [unfold can; cbn; now rewrite side_refl|now apply (k_fresh K)]. }
    destruct (@LK_shared g r i false (uns i) [] _ l K1) as (c' & H & K' & G' & S' & W'); [cbn; congruence|].
    exists c'. rewrite H. split; auto. split; auto. split; auto. split; auto.
    intros Hc. rewrite (W' eq_refl Hc). cbn [c_heard c_w with_alive]. apply uns_answered.
Qed.

Lemma release_ok : forall g r i c l, LK g (i :: r) i c [] l -> calm c ->
  (g = true -> t_shut (c_w c) = true -> c_closed c = true) ->
  exists c' f, (forall last, release down next last i c = Some (if last && f then free down c' else c')) /\
    LK g r i c' [] l /\ (forall j, c_alive c' j = true -> c_alive c j = true) /\ c_alive c' i = false /\
    (c_closed c = true -> c_closed c' = true) /\ (c_closed c' = false -> c_offs c' = c_offs c ++ [i]) /\ c_handle c' = c_handle c /\
    (g = true -> t_shut (c_w c') = true -> c_closed c' = true) /\
    f = c_alive c i /\ (c_closed c = true -> uns_only (c_w c) (c_w c')) /\ (f = false -> c_alive c' = c_alive c).
Proof.
  intros g r i c l K Hcalm Hs.
  assert (Hoff : was_off i c = false).
  { unfold was_off. rewrite off_times. pose proof (k_times K i) as T. cbn in T. rewrite side_refl in T.
    replace (times i (c_offs c)) with 0 by lia. reflexivity. }
  assert (K0 : LK g r i (with_off i c) [] l).
  { destruct K as [K1 K2 K3 K4 K5 K6 K7 K8 K9 KF]. split; auto.
    - intros j. eapply HI_less; [apply K1|reflexivity|]. unfold can. rewrite off_app. cbn. destruct (c_alive c j), (was_off j c); cbn; auto.
    - intros j. cbn. rewrite times_app. specialize (K3 j). cbn in *. lia.
    - intros j A O. rewrite off_app in O. cbn in A. rewrite (Hcalm j A) in O. cbn in O. now apply side_eq. }
  unfold release. unfold can. rewrite Hoff. cbn [negb]. rewrite andb_true_r. destruct (c_alive c i) eqn:Ha; cbn [negb].
  - assert (K1 : LK g r i (with_off i c) [uns i] (ins_calls [] ++ l)).
    { destruct K0 as [K1 K2 K3 K4 K5 K6 K7 K8 K9 KF]. split; auto. intros j. apply (@HI_uns _ [] l j i (K1 j)); [unfold can; rewrite off_app, side_refl, orb_true_r; apply andb_false_r|now apply (k_fresh K)]. }
    destruct (@LK_shared g r i false (uns i) [] _ l K1) as (c1 & H1 & K1' & G1 & S1 & W1); [cbn; auto|]. rewrite H1.
    assert (U1 : c_closed c = true -> uns_only (c_w c) (c_w c1)) by (intros Hc; rewrite (W1 eq_refl Hc); apply uns_answered).
    assert (Ha1 : c_alive c1 i = true) by (rewrite (g_busy G1); exact Ha).
    destruct (drop_ok K1' Ha1 S1) as (c2 & H2 & K2 & G2 & S2 & W2). exists c2, true. split; [intros []; rewrite H2; auto|]. split; auto.
    destruct G1 as [a0 a1 a2 a3 a4 a5], G2 as [b0 b1 b2 b3 b4 b5]. cbn in *.
    split. { intros j Hj. apply b1 in Hj. destruct (side_eqb i j); [discriminate|auto]. }
    split. { destruct (c_alive c2 i) eqn:X; auto. apply b1 in X. now rewrite side_refl in X. }
    split; auto. split. { intros X. rewrite b3, a3; auto. destruct (c_closed c1); auto. rewrite b2 in X; auto. }
    split; [congruence|]. split; auto. split; auto. split; [|discriminate]. intros Hc. eapply uns_only_trans; [now apply U1|]. apply W2. now apply a2.
  - exists (with_off i c), false. split; [intros []; auto|]. split; auto. split; auto. split; auto. split; auto. split; auto. split; auto.
    split; auto. split; auto. split; auto. intros _. now left.
Qed.

Definition some_alive (c : cobs) : bool := c_alive c One || c_alive c Two.
Lemma emit_ok : forall g r e ins prompt c l, LK g r One c [] (e :: ins_calls ins ++ l) -> calm c -> can (src e) c = true ->
  (g = true -> t_shut (c_w c) = true -> c_closed c = true) ->
  exists c' f, (forall last, emit1 down next last e ins prompt c = Some (if last && f then free down c' else c')) /\
    LK g r One c' [] l /\ calm c' /\ (g = true -> t_shut (c_w c') = true -> c_closed c' = true) /\
    (forall i, c_alive c' i = true -> c_alive c i = true) /\ c_handle c' = c_handle c /\
    (c_closed c' = false -> c_closed c = false /\ c_offs c' = c_offs c) /\
    (f = false -> some_alive c' = true).
Proof.
  intros g r e ins prompt c l K Hcalm Hcan Hs. unfold emit1.
  assert (Ha : c_alive c (src e) = true) by (unfold can in Hcan; now apply andb_prop in Hcan).
  assert (K0 : LK g r (src e) c [e] (ins_calls ins ++ l)).
  { apply (@LK_calm _ _ One) with (2 := Hcalm). pose proof (k_fresh K (src e) Ha) as Hf. destruct K as [K1 K2 K3 K4 K5 K6 K7 K8 K9 KF].
    split; auto. intros i. exact (@HI_call c [] _ i e (K1 i) Hcan Hf). }
  destruct (@LK_shared g r (src e) prompt e ins c l K0 Hs) as (c1 & -> & K1 & G1 & S1 & _).
  assert (Ha1 : c_alive c1 (src e) = true) by (rewrite (g_busy G1); exact Ha).
  destruct (was_off (src e) c1) eqn:Ho.
  - destruct (drop_ok K1 Ha1 S1) as (c2 & H2 & K2 & G2 & S2 & _). exists c2, true.
    assert (Hd : c_alive c2 (src e) = false) by (destruct (c_alive c2 (src e)) eqn:X; auto; apply (g_alive G2) in X; cbn in X; now rewrite side_refl in X).
    pose proof (calm_dead K2 Hd) as C2.
    split; [intros []; rewrite H2; auto|]. split; [now apply (@LK_calm _ _ _ One _ _ _ K2)|]. split; auto. split; auto.
    destruct G1 as [a0 a1 a2 a3 a4 a5], G2 as [b0 b1 b2 b3 b4 b5]. cbn in *.
    split. { intros i Hi. apply b1 in Hi. destruct (side_eqb (src e) i); [discriminate|auto]. }
    split; [congruence|]. split; [|discriminate]. intros X.
    assert (Hc1 : c_closed c1 = false) by (destruct (c_closed c1); auto; rewrite b2 in X; auto).
    split; [destruct (c_closed c); auto; rewrite a2 in Hc1; auto|]. rewrite b3, a3; auto.
  - exists c1, false. assert (C1 : calm c1).
    { intros j Hj. destruct (was_off j c1) eqn:O; auto. rewrite (k_off K1 j Hj O) in O. congruence. }
    split; [intros []; auto|]. split; [now apply (@LK_calm _ _ _ One _ _ _ K1)|]. split; auto. split; auto. split; [apply (g_alive G1)|].
    split; [apply (g_handle G1)|]. split.
    + intros X. split; [destruct (c_closed c) eqn:Y; auto; rewrite (g_closed G1 Y) in X; auto|now apply (g_offs G1)].
    + intros _. unfold some_alive. destruct (src e); rewrite Ha1; auto using orb_true_r.
Qed.
Lemma LK_skip : forall g r b c q e l, LK g r b c q (e :: l) -> can (src e) c = false -> LK g r b c q l.
Proof.
  intros g r b c q e l [K1 K2 K3 K4 K5 K6 K7 K8 K9 KF] H. split; auto. intros i. eapply HI_skip; eauto.
Qed.

(** *** While the sources are being subscribed to. *)
Definition SUB (r : list side) (c : cobs) (l : list event) : Prop := LK false r One c [] l /\ calm c.
Lemma sub_emit1 : forall r e ins prompt c l, SUB r c (e :: ins_calls ins ++ l) -> can (src e) c = true ->
  exists c', emit1 down next false e ins prompt c = Some c' /\ SUB r c' l /\ (forall i, c_alive c' i = true -> c_alive c i = true).
Proof.
  intros r e ins prompt c l [K C] Hcan. destruct (@emit_ok false r e ins prompt c l K C Hcan) as (c' & f & H & K' & C' & _ & A' & _); [discriminate|].
  exists c'. rewrite H. split; auto. split; [split|]; auto.
Qed.
Lemma sub_meanwhile : forall r l ins c, SUB r c (ins_calls ins ++ l) ->
  exists c', meanwhile down next false ins c = Some c' /\ SUB r c' l /\ (forall i, c_alive c' i = true -> c_alive c i = true).
Proof.
  induction ins as [|[e|] ins IH]; intros c H; cbn [meanwhile]; [eauto| |apply IH; auto].
  destruct (can (src e) c) eqn:Hc.
  - destruct (@sub_emit1 r e [] false c (ins_calls ins ++ l) H Hc) as (c1 & -> & H1 & A1'). destruct (IH c1 H1) as (c2 & H2 & S2 & A2').
    exists c2. auto.
  - apply IH. destruct H as [K C]. split; auto. exact (LK_skip K Hc).
Qed.
Lemma sub_emit : forall r e ins prompt c l, SUB r c (e :: ins_calls ins ++ l) ->
  exists c', emit down next false e ins prompt c = Some c' /\ SUB r c' l /\ (forall i, c_alive c' i = true -> c_alive c i = true).
Proof.
  intros r e ins prompt c l H. unfold emit. destruct (can (src e) c) eqn:Hc; [now apply sub_emit1|].
  apply sub_meanwhile. destruct H as [K C]. split; auto. exact (LK_skip K Hc).
Qed.
Lemma sub_emits : forall r l b c, SUB r c (sub_calls b ++ l) ->
  exists c', emits down next b c = Some c' /\ SUB r c' l /\ (forall i, c_alive c' i = true -> c_alive c i = true).
Proof.
  induction b as [|[[e ins] prompt] b IH]; intros c H; cbn [emits]; [eauto|].
  destruct (@sub_emit r e ins prompt c (sub_calls b ++ l)) as (c1 & -> & H1 & A1'); [cbn in H; now rewrite <- app_assoc in H|].
  destruct (IH c1 H1) as (c2 & H2 & S2 & A2'). exists c2. auto.
Qed.
Lemma sub_drop : forall r i c l, SUB r c l -> exists c', drop_either down next false i c = Some c' /\ SUB r c' l /\ (forall i, c_alive c' i = true -> c_alive c i = true).
Proof.
  intros r i c l [K C]. destruct (c_alive c i) eqn:Ha.
  - destruct (@drop_ok false r i c l (LK_calm i K C) Ha) as (c' & H & K' & G' & _); [discriminate|]. exists c'. rewrite H. split; auto.
    assert (A' : forall j, c_alive c' j = true -> c_alive c j = true) by (intros j Hj; apply (g_alive G') in Hj; cbn in Hj; destruct (side_eqb i j); [discriminate|auto]).
    assert (Hd : c_alive c' i = false) by (destruct (c_alive c' i) eqn:X; auto; apply (g_alive G') in X; cbn in X; now rewrite side_refl in X).
    pose proof (calm_dead K' Hd) as C'. split; auto. split; auto. now apply (@LK_calm _ _ _ One _ _ _ K').
  - exists c. unfold drop_either. rewrite Ha. split; auto. split; [split|]; auto.
Qed.
Lemma sub_bring : forall r i b c l, SUB r (with_alive i true c) (sub_calls (b_calls b) ++ l) ->
  exists c', bring down next i b c = Some c' /\ SUB r c' l /\ (forall j, c_alive c' j = true -> i = j \/ c_alive c j = true).
Proof.
  intros r i b c l H. unfold bring. destruct (sub_emits _ _ H) as (c1 & -> & S1 & A1').
  assert (A : forall j, c_alive c1 j = true -> i = j \/ c_alive c j = true).
  { intros j Hj. apply A1' in Hj. cbn in Hj. destruct (side_eqb i j) eqn:X; auto. left. now apply side_eq. }
  destruct (b_over b); [|eauto]. destruct (sub_drop i S1) as (c2 & -> & S2 & A2'). exists c2. auto.
Qed.

(** *** After [subscribe] has returned. [r]: subscriptions still to be let go. *)
Record DONE (r : list side) (c : cobs) (l : list event) : Prop := mkD {
  d_hi : forall i, HI c [] l i;
  d_run : exists w0, comb_run next (c_heard c) start t_new = Some (c_s c, w0) /\ uns_only w0 (c_w c);
  d_offs : forall i, times i (c_offs c) + times i r = 1;
  d_held : c_held c = [];
  d_closed : c_closed c = true;
  d_alive : forall i, c_alive c i = false;
  d_gone : c_gone c = true;
  d_shut : t_shut (c_w c) = true
}.
(** The subscriptions that were closed when they were returned. *)
Variable offs0 : list side.
Record MAIN (c : cobs) (l : list event) : Prop := mkM {
  m_lk : LK true [] One c [] l;
  m_calm : calm c;
  m_open : c_closed c = false;
  m_shut : t_shut (c_w c) = false;
  m_some : some_alive c = true;
  m_offs : c_offs c = offs0
}.
Definition FI c l := MAIN c l \/ DONE [] c l.

Lemma times_off : forall i (c : cobs), times i (c_offs c) = 1 -> was_off i c = true.
Proof. intros i c H. unfold was_off. now rewrite off_times, H. Qed.
Lemma releases_dead : forall l (c : cobs) q, (forall i, c_alive c i = false) ->
  let cq := fold_left (release_locked One false) l (c, q) in
  snd cq = q /\ c_offs (fst cq) = c_offs c ++ l /\ c_alive (fst cq) = c_alive c /\ c_heard (fst cq) = c_heard c /\
  c_s (fst cq) = c_s c /\ c_w (fst cq) = c_w c /\ c_held (fst cq) = c_held c /\ c_closed (fst cq) = c_closed c /\ c_gone (fst cq) = c_gone c /\
  c_handle (fst cq) = c_handle c.
Proof.
  induction l as [|i l IH]; intros c q H; cbn [fold_left].
  - rewrite app_nil_r. cbn zeta. cbn [fst snd]. auto 12.
  - replace (release_locked One false (c, q) i) with (with_off i c, q) by (unfold release_locked, can; now rewrite H).
    destruct (IH (with_off i c) q H) as (X1 & X2 & X3 & X4 & X5 & X6 & X7 & X8 & X9 & X10). cbn zeta.
    rewrite X1, X2, X3, X4, X5, X6, X7, X8, X9, X10. cbn. rewrite <- app_assoc. auto 12.
Qed.
Lemma free_handle : forall c : cobs, c_handle (free down c) = c_handle c.
Proof.
  intros c. unfold free. destruct (c_alive c One || c_alive c Two || c_gone c) eqn:H; auto.
  apply orb_false_elim in H. destruct H as [H _]. apply orb_false_elim in H. destruct H as [H1 H2].
  destruct (t_shut (c_w (with_gone c))); auto. unfold closing. destruct (_ && _); auto. unfold unsubscribe_locked.
  destruct (c_closed _); auto. match goal with |- context [fold_left _ ?l (?x, ?q)] => destruct (@releases_dead l x q) as (_ & _ & _ & _ & _ & _ & _ & _ & _ & ->) end; auto.
  intros []; auto.
Qed.

(** The dropped subscriber. *)
Lemma settle0 : forall r c l, LK true r One c [] l -> (t_shut (c_w c) = true -> c_closed c = true) ->
  (some_alive c = true /\ free down c = c) \/ (some_alive c = false /\ DONE r (free down c) l /\ uns_only (c_w c) (c_w (free down c))).
Proof.
  intros r c l K Hs. unfold free, some_alive. rewrite (k_gone K), orb_false_r. destruct (c_alive c One || c_alive c Two) eqn:Ha; [now left|].
  right. split; auto. apply orb_false_elim in Ha. destruct Ha as [Ha1 Ha2].
  assert (Hd : forall i, c_alive c i = false) by (intros []; auto).
  assert (HHI : forall c', c_heard c' = c_heard c -> c_alive c' = c_alive c -> forall i, HI c' [] l i).
  { intros c' H1 H2 i. eapply HI_less; [apply (k_hi K)|auto|]. unfold can. rewrite H2, Hd. discriminate. }
  cbn [c_w with_gone]. destruct (t_shut (c_w c)) eqn:Hw.
  - assert (Hc : c_closed c = true) by auto. split; [|now left]. split; auto.
    + exists (c_w c). split; [exact (k_run K)|now left].
    + intros i. pose proof (k_times K i) as T. rewrite (k_held K Hc) in T. exact T.
    + exact (k_held K Hc).
  - set (c2 := with_told (tell down Uns (c_w c)) (with_gone c)).
    assert (Hsh : t_shut (tell down Uns (c_w c)) = true) by (cbn; now rewrite orb_true_r).
    assert (HU : uns_only (c_w c) (tell down Uns (c_w c))) by (right; auto).
    assert (Hr : exists w0, comb_run next (c_heard c) start t_new = Some (c_s c, w0) /\ uns_only w0 (tell down Uns (c_w c))).
    { exists (c_w c). split; [exact (k_run K)|auto]. }
    unfold closing. change (t_shut (c_w c2)) with (t_shut (tell down Uns (c_w c))). rewrite Hsh. cbn [andb].
    change (c_reg c2) with (c_reg c). destruct (c_closed c) eqn:Hc.
    + assert (T : forall i, times i (c_offs c) + times i r = 1) by (intros i; pose proof (k_times K i) as T; rewrite (k_held K Hc) in T; exact T).
      unfold unsubscribe_locked. cbn [c_closed with_reg]. change (c_closed c2) with (c_closed c). rewrite Hc.
      destruct (c_reg c); cbn [fst]; (split; [|exact HU]); (split; auto); exact (k_held K Hc).
    + rewrite (k_reg K Hc). unfold unsubscribe_locked. cbn [c_closed with_reg]. change (c_closed c2) with (c_closed c). rewrite Hc.
      destruct (releases_dead (c_held c) (with_held true [] (with_reg false c2)) [] Hd) as (X1 & X2 & X3 & X4 & X5 & X6 & X7 & X8 & X9 & X10).
      change (c_held (with_reg false c2)) with (c_held c).
      split; [|rewrite X6; exact HU].
      split; rewrite ?X2, ?X3, ?X4, ?X5, ?X6, ?X7, ?X8, ?X9; auto.
      intros i. cbn. rewrite times_app. pose proof (k_times K i) as T. cbn in T. lia.
Qed.
(** All was let go: no subscriber is left. *)
Lemma closed_dead : forall c l, LK true [] One c [] l -> calm c -> c_closed c = true -> some_alive c = false.
Proof.
  intros c l K C Hc. assert (O : forall i, was_off i c = true) by (intros i; apply times_off; pose proof (k_times K i) as T; rewrite (k_held K Hc) in T; cbn in T; lia).
  destruct (some_alive c) eqn:Ha; auto. apply orb_prop in Ha. destruct Ha as [Ha|Ha]; apply C in Ha; rewrite O in Ha; discriminate.
Qed.
Lemma settle : forall c l, LK true [] One c [] l -> calm c -> (t_shut (c_w c) = true -> c_closed c = true) ->
  (c_closed c = false -> c_offs c = offs0) -> FI (free down c) l /\ uns_only (c_w c) (c_w (free down c)).
Proof.
  intros c l K C Hs Ho. destruct (settle0 K Hs) as [[Ha ->]|(Ha & HD & HU)]; [|split; [now right|auto]].
  split; [|now left]. left. assert (Hc : c_closed c = false) by (destruct (c_closed c) eqn:X; auto; rewrite (closed_dead K C X) in Ha; auto).
  split; auto. destruct (t_shut (c_w c)); auto. rewrite Hs in Hc; auto.
Qed.

Lemma FI_skip : forall c e l, FI c (e :: l) -> can (src e) c = false -> FI c l.
Proof.
  intros c e l [[M1 M2 M3 M4 M5 M6]|[D1 D2 D3 D4 D5 D6 D7 D8]] H.
  - left. split; auto. exact (LK_skip M1 H).
  - right. split; auto. intros i. eapply HI_skip; eauto.
Qed.
Lemma FI_emit1 : forall e ins prompt c l, FI c (e :: ins_calls ins ++ l) -> can (src e) c = true ->
  exists c', emit1 down next true e ins prompt c = Some c' /\ FI c' l /\ c_handle c' = c_handle c.
Proof.
  intros e ins prompt c l [[M1 M2 M3 M4 M5 M6]|D] Hcan.
  - destruct (@emit_ok true [] e ins prompt c l M1 M2 Hcan) as (c' & f & H & K' & C' & S' & A' & H' & O' & F'); [congruence|].
    rewrite H. cbn [andb]. exists (if f then free down c' else c'). split; auto.
    destruct (@settle c' l K' C' (S' eq_refl)) as [X _]; [intros Y; destruct (O' Y) as [_ ->]; exact M6|].
    split; [|destruct f; rewrite ?free_handle; auto]. destruct f; auto. destruct (settle0 K' (S' eq_refl)) as [[_ Z]|(Z & _)]; [now rewrite Z in X|]. rewrite F' in Z; auto. discriminate.
  - unfold can in Hcan. rewrite (d_alive D) in Hcan. discriminate.
Qed.
Lemma FI_meanwhile : forall l ins c, FI c (ins_calls ins ++ l) ->
  exists c', meanwhile down next true ins c = Some c' /\ FI c' l /\ c_handle c' = c_handle c.
Proof.
  induction ins as [|[e|] ins IH]; intros c H; cbn [meanwhile]; [eauto| |apply IH; auto].
  destruct (can (src e) c) eqn:Hc.
  - destruct (@FI_emit1 e [] false c (ins_calls ins ++ l) H Hc) as (c1 & -> & H1 & A1'). destruct (IH c1 H1) as (c2 & H2 & S2 & A2').
    exists c2. split; auto. split; auto. congruence.
  - apply IH. exact (FI_skip H Hc).
Qed.
Lemma FI_emit : forall e ins prompt c l, FI c (e :: ins_calls ins ++ l) ->
  exists c', emit down next true e ins prompt c = Some c' /\ FI c' l /\ c_handle c' = c_handle c.
Proof.
  intros e ins prompt c l H. unfold emit. destruct (can (src e) c) eqn:Hc; [now apply FI_emit1|].
  apply FI_meanwhile. exact (FI_skip H Hc).
Qed.
Lemma FI_drop : forall i c l, FI c l -> exists c', drop_either down next true i c = Some c' /\ FI c' l /\ c_handle c' = c_handle c.
Proof.
  intros i c l H. destruct (c_alive c i) eqn:Ha; [|exists c; unfold drop_either; rewrite Ha; auto].
  destruct H as [[M1 M2 M3 M4 M5 M6]|D]; [|rewrite (d_alive D) in Ha; discriminate].
  destruct (@drop_ok true [] i c l (LK_calm i M1 M2) Ha) as (c' & H & K' & G' & S' & _); [congruence|]. exists (free down c'). rewrite H. split; auto.
  assert (Hd : c_alive c' i = false) by (destruct (c_alive c' i) eqn:X; auto; apply (g_alive G') in X; cbn in X; now rewrite side_refl in X).
  pose proof (calm_dead K' Hd) as C'. split; [|rewrite free_handle; exact (g_handle G')].
  destruct (@settle c' l (LK_calm One K' C') C' (S' eq_refl)) as [X _]; auto. intros Y. rewrite (g_offs G' Y). exact M6.
Qed.

(** The subscriptions are let go of one by one. *)
Lemma unsub_releases : forall l w0 rest c,
  ((LK true rest One c [] l /\ calm c /\ c_closed c = true /\ some_alive c = true) \/ DONE rest c l) -> uns_only w0 (c_w c) ->
  exists c', releases down next rest c = Some c' /\ DONE [] c' l /\ uns_only w0 (c_w c') /\ c_handle c' = c_handle c.
Proof.
  induction rest as [|i rest IH]; intros c H HU; cbn [releases].
  - destruct H as [(K & C & Hc & Ha)|D]; [rewrite (closed_dead K C Hc) in Ha; discriminate|eauto].
  - destruct H as [(K & C & Hc & Ha)|D].
    + destruct (@release_ok true rest i c l (LK_calm i K C) C (fun _ _ => Hc)) as (c' & f & H & K' & A' & Hd & Hc' & _ & H' & S' & Hf & U' & AL). rewrite H. cbn [andb].
      pose proof (calm_dead K' Hd) as C'. assert (K1 := LK_calm One K' C'). assert (HU' : uns_only w0 (c_w c')) by (eapply uns_only_trans; eauto).
      assert (X : ((LK true rest One (if f then free down c' else c') [] l /\ calm (if f then free down c' else c') /\ c_closed (if f then free down c' else c') = true /\ some_alive (if f then free down c' else c') = true) \/
        DONE rest (if f then free down c' else c') l) /\ uns_only w0 (c_w (if f then free down c' else c'))).
      { destruct f.
        - destruct (settle0 K1 (S' eq_refl)) as [[Y ->]|(Y & D & U)]; [split; [left|]; auto|]. split; auto. eapply uns_only_trans; eauto.
        - split; auto. left. split; auto. split; auto. split; auto. unfold some_alive in *. now rewrite AL. }
      destruct X as [X1 X2]. destruct (IH _ X1 X2) as (c2 & H2 & D2 & U2 & E2). exists c2. split; auto. split; auto. split; auto. rewrite E2.
      destruct f; rewrite ?free_handle; auto.
    + unfold release. replace (negb (can i c)) with true by (unfold can; now rewrite (d_alive D)).
      destruct (IH (with_off i c)) as (c2 & H2 & D2 & U2 & E2); auto.
      * right. destruct D as [D1 D2 D3 D4 D5 D6 D7 D8]. split; auto.
        -- intros j. eapply HI_less; [apply D1|reflexivity|]. unfold can. cbn. now rewrite D6.
        -- intros j. cbn. rewrite times_app. specialize (D3 j). cbn in *. lia.
      * exists c2. auto.
Qed.
Lemma FI_unsub : forall c l, FI c l -> exists c', unsubscribe down next c = Some c' /\ DONE [] c' l /\ uns_only (c_w c) (c_w c') /\ c_handle c' = c_handle c.
Proof.
  intros c l H. unfold unsubscribe. destruct H as [[M1 M2 M3 M4 M5 M6]|D].
  - rewrite M3. destruct (@unsub_releases l (c_w c) (c_held c) (with_held true [] c)) as (c' & H); [left|now left|exists c'; exact H].
    split; auto. destruct M1 as [K1 K2 K3 K4 K5 K6 K7 K8 K9 KF]. split; auto; cbn; try discriminate. intros i. specialize (K3 i). cbn in *. lia.
  - rewrite (d_closed D). exists c. split; auto. split; auto. split; auto. now left.
Qed.
Lemma FI_handle : forall b c l, FI c l -> FI (with_handle b c) l.
Proof.
  intros b c l [[M1 M2 M3 M4 M5 M6]|[D1 D2 D3 D4 D5 D6 D7 D8]]; [left|right; split; auto]. split; auto.
  destruct M1 as [K1 K2 K3 K4 K5 K6 K7 K8 K9 KF]. split; auto. discriminate.
Qed.
Lemma FI_forget : forall c l, FI c l -> cstep down next CForget c = Some (with_handle false c).
Proof.
  intros c l [[M1 M2 M3 M4 M5 M6]|D]; cbn.
  - rewrite (k_reg M1 M3), orb_true_r. reflexivity.
  - unfold unsubscribe. cbn. rewrite (d_closed D). destruct (negb (c_handle c) || c_reg c); auto.
Qed.
Lemma FI_step : forall x c l, FI c (ev_calls [x] ++ l) -> exists c', cstep down next x c = Some c' /\ FI c' l /\ (x <> CForget -> c_handle c' = c_handle c).
Proof.
  intros x c l H. destruct x as [e ins prompt|i| |]; cbn [ev_calls] in H; rewrite ?app_nil_r in H; cbn [cstep].
  - destruct (@FI_emit e ins prompt c l H) as (c' & ? & ? & ?); eauto.
  - destruct (FI_drop i H) as (c' & ? & ? & ?); eauto.
  - destruct (c_handle c) eqn:Hh; [|exists c; auto]. rewrite <- Hh. destruct (FI_unsub H) as (c' & ? & ? & ? & ?). exists c'. split; auto. split; auto. now right.
  - pose proof (FI_forget H) as F. cbn in F. rewrite F. eexists. split; [reflexivity|]. split; [now apply FI_handle|congruence].
Qed.
Lemma ev_calls_cons : forall x (l : list (cevent A1 A2 E)), ev_calls (x :: l) = ev_calls [x] ++ ev_calls l.
Proof. intros [] l; cbn; auto. now rewrite app_nil_r. Qed.
Lemma FI_steps : forall l c, FI c (ev_calls l) -> exists c', csteps down next l c = Some c' /\ FI c' [] /\
  (~ In CForget l -> c_handle c' = c_handle c).
Proof.
  induction l as [|x l IH]; intros c H; cbn [csteps]; [eauto|]. rewrite ev_calls_cons in H.
  destruct (@FI_step x c _ H) as (c1 & -> & H1 & E1). destruct (IH c1 H1) as (c2 & H2 & F2 & E2). exists c2. split; auto. split; auto.
  intros Hn. rewrite E2, E1; auto; intros X; apply Hn; cbn; auto.
Qed.

(** *** The end of [subscribe]: the subscriptions are added to [S]. *)
Lemma hold_ok : forall i r b c l, LK true (i :: r) One c [] l -> calm c -> (t_shut (c_w c) = true -> c_closed c = true) ->
  exists c', hold down next i b c = Some c' /\ LK true r One c' [] l /\ calm c' /\ (t_shut (c_w c') = true -> c_closed c' = true) /\
    (c_closed c' = false -> c_offs c' = c_offs c ++ (if b_closed b then [i] else []) /\ c_closed c = false).
Proof.
  intros i r b c l K C Hs. unfold hold. destruct (b_closed b || c_closed c) eqn:Hb.
  - destruct (@release_ok true r i c l (LK_calm i K C) C (fun _ => Hs)) as (c' & f & H & K' & A' & Hd & Hc' & O' & _ & S' & _).
    rewrite H. cbn [andb]. exists c'. split; auto. pose proof (calm_dead K' Hd) as C'. split; [exact (LK_calm One K' C')|]. split; auto. split; auto.
    intros X. assert (Hc : c_closed c = false) by (destruct (c_closed c); auto; rewrite Hc' in X; auto). rewrite Hc, orb_false_r in Hb. rewrite Hb. auto.
  - apply orb_false_elim in Hb. destruct Hb as [-> Hc]. exists (with_held false (c_held c ++ [i]) c). split; auto. split; [|split; [auto|split; [|cbn; rewrite app_nil_r; auto]]].
    + destruct K as [K1 K2 K3 K4 K5 K6 K7 K8 K9 KF]. split; auto; cbn; try discriminate. intros j. rewrite times_app. specialize (K3 j). cbn in *. lia.
    + intros X. rewrite Hs in Hc; auto.
Qed.
End Run.

(** *** [subscribe], and all after it. *)
Section Whole.
Variables A1 A2 E B St : Type.
Notation event := (either2 A1 A2 E).
Variable down : list (ncall B E) -> bool.
Variable looks : bool.
Variable answer : list event -> event -> list (ncall B E).
Variable next : event -> St -> told B E -> option (St * told B E).
Variable start : St.
Hypothesis RUN : forall h, lawful (map snd h) ->
  exists s, comb_run next h start t_new = Some (s, answers down looks answer [] t_new h).
Hypothesis ANS : forall p i, answer p (uns_of A1 A2 E i) = [] \/ answer p (uns_of A1 A2 E i) = [Uns].
Notation cobs := (cobs A1 A2 E B St).
Notation uns := (uns_of A1 A2 E).
Notation source := (source A1 A2 E).

Definition is_two (i : side) : bool := match i with One => false | Two => true end.
Definition no_side (i : side) : bool := false.

Lemma subscribe_ok : forall b1 b2 l, contract false false (on1 (called b1 b2 l One)) -> contract false false (on2 (called b1 b2 l Two)) ->
  exists c, subscribe down next start b1 b2 = Some c /\ c_handle c = true /\
    FI down next start (called b1 b2 l) no_side (at_once b1 b2) c l.
Proof.
  intros b1 b2 l L1 L2. unfold subscribe.
  assert (S0 : SUB next start (called b1 b2 l) is_two [One; Two] (with_alive One true (c_new A1 A2 E B start)) (sub_calls (b_calls b1) ++ sub_calls (b_calls b2) ++ l)).
  { split; [|intros i _; reflexivity]. split; auto; try discriminate.
    - intros []; cbn.
      + exists [], (called b1 b2 l One), 0. auto.
      + exists [], (called b1 b2 l Two), 0. split; auto. split; auto. split; [discriminate|auto].
    - intros []; reflexivity.
    - intros [] H; cbn in *; congruence. }
  destruct (@sub_bring _ _ _ _ _ down looks answer next start RUN ANS (called b1 b2 l) L1 L2 is_two [One; Two] One b1 (c_new A1 A2 E B start) _ S0) as (c1 & -> & [K1 C1] & A1').
  assert (Ht : c_alive c1 Two = false) by (destruct (c_alive c1 Two) eqn:X; auto; apply A1' in X; destruct X; discriminate).
  assert (Hz : c_held c1 = [] /\ c_offs c1 = []).
  { assert (Z : forall x, (forall i, times i x = 0) -> x = []) by (intros [|j x] Hx; auto; specialize (Hx j); cbn in Hx; rewrite side_refl in Hx; discriminate).
    split; apply Z; intros i; pose proof (k_times K1 i) as T; destruct i; cbn in T; lia. }
  destruct Hz as [_ Hz].
  assert (S1 : SUB next start (called b1 b2 l) no_side [One; Two] (with_alive Two true c1) (sub_calls (b_calls b2) ++ l)).
  { split; [|intros i _; unfold was_off; cbn; now rewrite Hz]. destruct K1 as [X1 X2 X3 X4 X5 X6 X7 X8 X9 XF]. split; auto.
    - intros [].
      + destruct (X1 One) as (pre & post & m & Y1 & Y2 & Y3 & Y4). exists pre, post, m. split; [exact Y1|]. split; [exact Y2|]. split; [exact Y3|discriminate].
      + destruct (X1 Two) as (pre & post & m & Y1 & Y2 & Y3 & Y4). destruct (Y4 eq_refl) as [-> ->]. exists [], post, 0. split; [exact Y1|]. split; [exact Y2|].
        split; [|discriminate]. intros _. split; auto.
    - intros i. unfold was_off. cbn. rewrite Hz. discriminate. }
  destruct (@sub_bring _ _ _ _ _ down looks answer next start RUN ANS (called b1 b2 l) L1 L2 no_side [One; Two] Two b2 c1 _ S1) as (c2 & -> & [K2 C2] & _).
  set (c3 := if t_shut (c_w c2) then with_held true [] c2 else with_reg true c2).
  assert (K3 : LK next start (called b1 b2 l) no_side true [One; Two] One c3 [] l /\ calm c3 /\ (t_shut (c_w c3) = true -> c_closed c3 = true) /\ (c_closed c3 = false -> c_offs c3 = [])).
  { assert (Hz2 : c_held c2 = [] /\ c_offs c2 = []).
    { assert (Z : forall x, (forall i, times i x = 0) -> x = []) by (intros [|j x] Hx; auto; specialize (Hx j); cbn in Hx; rewrite side_refl in Hx; discriminate).
      split; apply Z; intros i; pose proof (k_times K2 i) as T; destruct i; cbn in T; lia. }
    destruct Hz2 as [Hh Ho]. destruct K2 as [X1 X2 X3 X4 X5 X6 X7 X8 X9 XF]. unfold c3. destruct (t_shut (c_w c2)) eqn:Hw.
    - split; [|split; [auto|split; [auto|cbn; discriminate]]]. split; auto; cbn; try discriminate. intros i. specialize (X3 i). rewrite Hh in X3. exact X3.
    - split; [|split; [auto|split; [cbn; congruence|auto]]]. split; auto. }
  destruct K3 as (K3 & C3 & S3 & O3). clearbody c3.
  destruct (@hold_ok _ _ _ _ _ down looks answer next start RUN ANS (called b1 b2 l) L1 L2 no_side One [Two] b1 c3 l K3 C3 S3) as (c4 & -> & K4 & C4 & S4 & O4).
  destruct (@hold_ok _ _ _ _ _ down looks answer next start RUN ANS (called b1 b2 l) L1 L2 no_side Two [] b2 c4 l K4 C4 S4) as (c5 & -> & K5 & C5 & S5 & O5).
  eexists. split; [reflexivity|]. split; [now rewrite free_handle|].
  apply settle; auto.
  - destruct K5 as [X1 X2 X3 X4 X5 X6 X7 X8 X9 XF]. split; auto.
  - cbn. intros Hc. destruct (O5 Hc) as [-> Hc4]. destruct (O4 Hc4) as [-> Hc3]. now rewrite (O3 Hc3).
Qed.
Lemma combined_ok : forall b1 b2 l, lawful_sources b1 b2 l ->
  exists c, combined down next start b1 b2 l = Some c /\ (~ In CForget l -> c_handle c = true) /\
    FI down next start (called b1 b2 (ev_calls l)) no_side (at_once b1 b2) c [].
Proof.
  intros b1 b2 l [L1 L2]. unfold combined. destruct (subscribe_ok b1 b2 (ev_calls l) L1 L2) as (c & -> & Hh & F).
  destruct (@FI_steps _ _ _ _ _ down looks answer next start RUN ANS _ L1 L2 no_side (at_once b1 b2) l c F) as (c' & H & F' & Hh').
  exists c'. split; auto. split; auto. intros X. rewrite Hh'; auto.
Qed.
Section Facts.
Variables (b1 b2 : source) (l : list (cevent A1 A2 E)) (c : cobs).
Hypothesis L : lawful_sources b1 b2 l.
Hypothesis C : combined down next start b1 b2 l = Some c.
Lemma fi_of : FI down next start (called b1 b2 (ev_calls l)) no_side (at_once b1 b2) c [].
Proof. destruct (@combined_ok b1 b2 l L) as (c' & H & _ & F). congruence. Qed.
Lemma handle_of : ~ In CForget l -> c_handle c = true.
Proof. intros X. destruct (@combined_ok b1 b2 l L) as (c' & H & Y & _). rewrite C in H. injection H as <-. auto. Qed.
Lemma hi_of : forall i, HI (called b1 b2 (ev_calls l)) no_side c [] [] i.
Proof. destruct fi_of as [M|D]; [apply (k_hi (m_lk M))|apply (d_hi D)]. Qed.
Lemma heard_of : forall i, exists n m, of i (map snd (c_heard c)) = firstn n (called b1 b2 (ev_calls l) i) ++ repeat (uns i) m /\
  (can i c = true -> of i (map snd (c_heard c)) = called b1 b2 (ev_calls l) i).
Proof.
  intros i. destruct (hi_of i) as (pre & post & m & H1 & H2 & H3 & _). rewrite app_nil_r in H1.
  exists (length pre), m. rewrite H1, H2, firstn_app, firstn_all, Nat.sub_diag. cbn [firstn]. rewrite app_nil_r. split; auto.
  intros X. destruct (H3 X) as [-> ->]. cbn. now rewrite app_nil_r.
Qed.
Lemma told_of : let w := answers down looks answer [] t_new (c_heard c) in
  c_w c = w \/ (t_shut w = false /\ c_gone c = true /\ c_w c = tell down Uns w).
Proof.
  assert (R : exists s, comb_run next (c_heard c) start t_new = Some (s, answers down looks answer [] t_new (c_heard c))).
  { apply RUN. pose proof (@HI_lawful _ _ _ _ _ _ (proj1 L) (proj2 L) no_side c [] [] hi_of) as X. now rewrite app_nil_r in X. }
  destruct R as (s & R). destruct fi_of as [M|D].
  - left. pose proof (k_run (m_lk M)) as K. congruence.
  - destruct (d_run D) as (w0 & H & U). rewrite H in R. injection R as _ <-. destruct U as [U|[U1 U2]]; auto. right. split; auto. split; auto. apply (d_gone D).
Qed.
Lemma open_of : t_shut (c_w c) = false -> c_offs c = at_once b1 b2 /\ c_gone c = false /\ (c_alive c One = true \/ c_alive c Two = true).
Proof.
  intros H. destruct fi_of as [M|D]; [|rewrite (d_shut D) in H; discriminate].
  split; [apply (m_offs M)|]. split; [apply (k_gone (m_lk M))|]. apply orb_prop. apply (m_some M).
Qed.
Lemma closed_of : t_shut (c_w c) = true -> c_gone c = true /\ c_held c = [] /\ forall i, times i (c_offs c) = 1 /\ c_alive c i = false.
Proof.
  intros H. destruct fi_of as [M|D]; [rewrite (m_shut M) in H; discriminate|].
  split; [apply (d_gone D)|]. split; [apply (d_held D)|]. intros i. split; [pose proof (d_offs D i) as T; cbn in T; lia|apply (d_alive D)].
Qed.
Lemma unsub_of : c_handle c = true -> exists c', cstep down next CUnsub c = Some c' /\ t_shut (c_w c') = true /\
  t_out (c_w c') = t_out (c_w c) ++ (if t_shut (c_w c) then [] else [Uns]).
Proof.
  intros H. cbn. rewrite H. destruct (@FI_unsub _ _ _ _ _ down looks answer next start RUN ANS _ (proj1 L) (proj2 L) no_side (at_once b1 b2) c [] fi_of) as (c' & H1 & D & U & _).
  exists c'. split; auto. split; [apply (d_shut D)|]. destruct U as [U|[U1 U2]].
  - rewrite U. destruct (t_shut (c_w c)) eqn:X; [now rewrite app_nil_r|]. pose proof (d_shut D) as Y. rewrite U in Y. congruence.
  - rewrite U2, U1. reflexivity.
Qed.
Lemma forget_of : cstep down next CForget c = Some (with_handle false c).
Proof. exact (FI_forget fi_of). Qed.
End Facts.
End Whole.

(** *** The four. *)
Section Four.
Variables A1 A2 E : Type.
Notation event := (either2 A1 A2 E).
Lemma cl_run : forall down (h : list (bool * event)), lawful (map snd h) ->
  exists s, comb_run (combine_latest_next down) h (ns_new, ns_new) t_new = Some (s, answers down true (@cl_answer A1 A2 E) [] t_new h).
Proof.
  intros down h H.
  apply (@lift_run _ _ _ _ _ down true (@cl_answer A1 A2 E) (combine_latest_next down) (fun p s => EXACT p s /\ live_cl p) (@WK A1 A2 E) (@lawful A1 A2 E)); auto.
  - exact (@lawful_pre A1 A2 E).
  - intros p s w e HI Hw Ho Hf. exact (@cl_open _ _ _ down _ _ w e HI Hw Ho Hf).
  - intros p s w e HW Hw Ho. apply state_shut with (p := p); auto; intros; now apply try_shut.
  - exact (@WK_skip A1 A2 E).
  - repeat split; discriminate.
Qed.
Lemma cc_run : forall down (h : list (bool * event)), lawful (map snd h) ->
  exists s, comb_run (combine_changes_next down) h (ns_new, ns_new) t_new = Some (s, answers down true (@cc_answer A1 A2 E) [] t_new h).
Proof.
  intros down h H.
  apply (@lift_run _ _ _ _ _ down true (@cc_answer A1 A2 E) (combine_changes_next down) (fun p s => EXACT p s /\ live p) (@WK A1 A2 E) (@lawful A1 A2 E)); auto.
  - exact (@lawful_pre A1 A2 E).
  - intros p s w e HI Hw Ho Hf. exact (@cc_open _ _ _ down _ _ w e HI Hw Ho Hf).
  - intros p s w e HW Hw Ho. apply state_shut with (p := p); auto; intros; now apply try_shut.
  - exact (@WK_skip A1 A2 E).
  - repeat split; discriminate.
Qed.
Lemma join_run : forall down (h : list (bool * event)), lawful (map snd h) ->
  exists s, comb_run (join_next down) h (ns_new, ns_new) t_new = Some (s, answers down false (@join_answer A1 A2 E) [] t_new h).
Proof.
  intros down h H.
  apply (@lift_run _ _ _ _ _ down false (@join_answer A1 A2 E) (join_next down) (fun p s => EXACT p s /\ live p) (@WK A1 A2 E) (@lawful A1 A2 E)); auto.
  - exact (@lawful_pre A1 A2 E).
  - intros p s w e HI Hw Ho Hf. exact (@join_open _ _ _ down _ _ w e HI Hw Ho Hf).
  - intros p s w e HW Hw Ho. exact (@join_shut _ _ _ down _ _ w e HW Hw Ho).
  - exact (@WK_skip A1 A2 E).
  - repeat split; discriminate.
Qed.
Lemma zip_run : forall max o, 0 < max -> forall down (h : list (bool * event)), lawful (map snd h) ->
  exists s, comb_run (zip_next down) h (nq_new A1 E max o, nq_new A2 E max o) t_new = Some (s, answers down true (zipq_answer max o) [] t_new h).
Proof.
  intros max o Hm down h H.
  apply (@lift_run A1 A2 E _ _ down true (zipq_answer max o) (zip_next down) (@ZI A1 A2 E max o) (@ZW A1 A2 E max) (@lawful A1 A2 E)); auto.
  - exact (@lawful_pre A1 A2 E).
  - intros p s w e HI Hw Ho Hf. exact (@zip_open _ _ _ _ _ Hm down _ _ w e HI Hw Ho Hf).
  - intros p s w e HW Hw Ho. exact (@zip_shut _ _ _ _ Hm down _ _ w e HW Hw Ho).
  - exact (@ZW_skip _ _ _ _).
  - split; [|split; [|split; reflexivity]]; (split; [|repeat split; reflexivity]); apply QI_new.
Qed.
Lemma combining_run : forall B St down looks answer next start, @combining A1 A2 E B St down looks answer next start ->
  (forall h, lawful (map snd h) -> exists s, comb_run next h start t_new = Some (s, answers down looks answer [] t_new h)) /\
  (forall p i, answer p (uns_of A1 A2 E i) = [] \/ answer p (uns_of A1 A2 E i) = [Uns]).
Proof.
  intros B St down looks answer next start H. destruct H.
  - split; [now apply zip_run|]. intros p []; cbn; unfold zipq_answer; destruct (unpaired max o p); cbn; destruct (_ || _); auto.
  - split; [apply cl_run|]. intros p []; cbn; destruct (ended _); auto; destruct (ended _); auto; destruct (_ && _); auto.
  - split; [apply cc_run|]. intros p []; cbn; destruct (ended _); auto; destruct (ended _); auto.
  - split; [apply join_run|]. intros p []; cbn; destruct (ended _); auto; destruct (ended _); auto.
Qed.
End Four.

(** *** The statements. *)
Section Claims.
Variables (A1 A2 E B St : Type) (down : list (ncall B E) -> bool) (looks : bool).
Variable answer : list (either2 A1 A2 E) -> either2 A1 A2 E -> list (ncall B E).
Variable next : either2 A1 A2 E -> St -> told B E -> option (St * told B E).
Variable start : St.
Hypothesis HC : combining down looks answer next start.
Let RUN := proj1 (combining_run HC).
Let ANS := proj2 (combining_run HC).
Lemma no_panic : forall b1 b2 l, lawful_sources b1 b2 l -> exists c, combined down next start b1 b2 l = Some c.
Proof. intros b1 b2 l L. destruct (@combined_ok _ _ _ _ _ down looks answer next start RUN ANS b1 b2 l L) as (c & H & _). eauto. Qed.
Section One.
Variables (b1 b2 : source A1 A2 E) (l : list (cevent A1 A2 E)) (c : cobs A1 A2 E B St).
Hypothesis L : lawful_sources b1 b2 l.
Hypothesis C : combined down next start b1 b2 l = Some c.
Lemma heard_well : forall i, exists n m, of i (map snd (c_heard c)) = firstn n (called b1 b2 (ev_calls l) i) ++ repeat (uns_of A1 A2 E i) m /\
    (c_alive c i = true -> ~ In i (c_offs c) -> of i (map snd (c_heard c)) = called b1 b2 (ev_calls l) i).
Proof.
  intros i. destruct (@heard_of _ _ _ _ _ down looks answer next start RUN ANS b1 b2 l c L C i) as (n & m & H1 & H2). exists n, m. split; auto. intros Ha Ho. apply H2. unfold can. rewrite Ha. cbn.
  destruct (was_off i c) eqn:X; auto. exfalso. apply Ho. unfold was_off in X. apply existsb_exists in X. destruct X as (j & X1 & X2). now rewrite (side_eq _ _ X2).
Qed.
Lemma told_well : let w := answers down looks answer [] t_new (c_heard c) in
  c_w c = w \/ (t_shut w = false /\ c_gone c = true /\ c_w c = tell down Uns w).
Proof. exact (@told_of _ _ _ _ _ down looks answer next start RUN ANS b1 b2 l c L C). Qed.
Lemma held_well : t_shut (c_w c) = false ->
  c_offs c = at_once b1 b2 /\ c_gone c = false /\ (c_alive c One = true \/ c_alive c Two = true).
Proof. exact (@open_of _ _ _ _ _ down looks answer next start RUN ANS b1 b2 l c L C). Qed.
Lemma let_go_well : t_shut (c_w c) = true ->
  c_gone c = true /\ c_held c = [] /\ forall i, times i (c_offs c) = 1 /\ c_alive c i = false.
Proof. exact (@closed_of _ _ _ _ _ down looks answer next start RUN ANS b1 b2 l c L C). Qed.
Lemma csteps_app : forall l1 l2 (x : cobs A1 A2 E B St), csteps down next (l1 ++ l2) x =
  match csteps down next l1 x with Some x' => csteps down next l2 x' | None => None end.
Proof. induction l1 as [|y l1 IH]; intros; cbn; auto. destruct (cstep down next y x); auto. Qed.
Lemma combined_snoc : forall x, combined down next start b1 b2 (l ++ [x]) = cstep down next x c.
Proof.
  intros x. revert C. unfold combined. destruct (subscribe down next start b1 b2); [|discriminate]. intros H. rewrite csteps_app, H. cbn.
  destruct (cstep down next x c); auto.
Qed.
Lemma drop_well : combined down next start b1 b2 (l ++ [CForget]) = Some (with_handle false c).
Proof. rewrite combined_snoc. exact (@forget_of _ _ _ _ _ down looks answer next start RUN ANS b1 b2 l c L C). Qed.
End One.
Lemma unsubscribe_well : forall b1 b2 l, lawful_sources b1 b2 l -> ~ In CForget l ->
  exists c c', combined down next start b1 b2 l = Some c /\ combined down next start b1 b2 (l ++ [CUnsub]) = Some c' /\
    t_shut (c_w c') = true /\ t_out (c_w c') = t_out (c_w c) ++ (if t_shut (c_w c) then [] else [Uns]).
Proof.
  intros b1 b2 l L Hn. destruct (@no_panic b1 b2 l L) as (c & C). destruct (@unsub_of _ _ _ _ _ down looks answer next start RUN ANS b1 b2 l c L C) as (c' & H); [now apply (@handle_of _ _ _ _ _ down looks answer next start RUN ANS b1 b2 l c L C)|].
  exists c, c'. rewrite (@combined_snoc b1 b2 l c C). auto.
Qed.
End Claims.
