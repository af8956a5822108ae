(** The async subject used by several threads: invariants and what follows. *)
From Verif Require Import Base SubscrModel PubConcModel PubConcSpec PubConcProofs PubConcTold PubConcTable PubConcOrder PubConcArrive PubConcHear PubConcEnd PubConcMain PubConcBefore PubConcClosed StoreConcModel StoreConcSpec StoreConcProofs StoreConcMain.
Set Implicit Arguments.
Arguments PubConcModel.step : simpl never.
Arguments PubConcModel.is_closed : simpl never.

Lemma sub_in X (a b : list X) x : sub a b -> In x a -> In x b.
Proof. induction 1; simpl; auto; tauto. Qed.
Lemma sub_len X (a b : list X) : sub a b -> length a <= length b.
Proof. induction 1; simpl; lia. Qed.

Section Async.
Variables V E : Type.
Notation call := (ncall (item V) E).
Notation st := (st V E).
Notation cmd := (cmd V E).
Notation micro := (micro V E).
Notation bst := (bst V E (option V)).
Notation ADD s := (NAdd V E s).
Variable f : V -> V -> V.
Variable shuts : nat -> list call -> bool.
Definition shown (o : option V) : list V := match o with Some v => [v] | None => [] end.
Notation step := (step shuts).
Notation bstep := (bstep (reduce f) shown shuts).
Notation brun := (brun (reduce f) shown shuts).
Notation small := (small (reduce f) shown).

(** *** Each thread pushes at most once. *)
Inductive letter : Type := P | C.
Definition lc (c : cmd) : list letter :=
  match c with KOp (ONext _) | KNext _ _ => [P] | KOp OCmp | KCmp _ _ | KCmpSet _ _ => [C] | _ => [] end.
Definition lm (m : micro) : list letter :=
  match m with MLast _ _ | MFeed (ONext _) => [P] | MFeed OCmp => [C] | _ => [] end.
Definition word (t : nat) (b : bst) : list letter := flat_map lc (nth t (v_thr (b_w b)) []) ++ flat_map lm (nth t (b_rest b) []).
Inductive alt : list letter -> Prop :=
| alt0 : alt []
| altC l : alt l -> alt (C :: l)
| altPC l : alt l -> alt (P :: C :: l).

Lemma outer_word u c (w : st) : flat_map lc (fst (outer shuts u c w)) = lc c \/
  (lc c = [C] /\ flat_map lc (fst (outer shuts u c w)) = [] /\ is_closed (snd (outer shuts u c w)) = true) \/
  (lc c = [P] /\ flat_map lc (fst (outer shuts u c w)) = []).
Proof.
  destruct c as [[]| | | | | | | | | | |n|n| |]; simpl; unfold defer; cases; auto.
  all: right; left; repeat split; auto; unfold is_closed; simpl; rewrite orb_true_r; auto.
Qed.
Lemma step_word (w : st) u k t : let l := flat_map lc (nth t (v_thr w) []) in let l' := flat_map lc (nth t (v_thr (step w (u, k))) []) in
  l' = l \/ (l = C :: l' /\ is_closed (step w (u, k)) = true) \/ l = P :: l' \/ (l' = [] /\ v_lock (step w (u, k)) = Poisoned /\ u = t /\ exists x y, v_lock w = Held u x y).
Proof.
  apply (@step_cases V E shuts (fun w' => let l := flat_map lc (nth t (v_thr w) []) in let l' := flat_map lc (nth t (v_thr w') []) in
    l' = l \/ (l = C :: l' /\ is_closed w' = true) \/ l = P :: l' \/ (l' = [] /\ v_lock w' = Poisoned /\ u = t /\ exists x y, v_lock w = Held u x y))); auto.
  - intros c cs En _. cbv zeta. destruct (Nat.eq_dec u t) as [<-|Hn].
    + simpl v_thr. rewrite nth_set_same by (apply nth_cons_lt in En; auto). rewrite En, flat_map_app. change (flat_map lc (c :: cs)) with (lc c ++ flat_map lc cs).
      destruct (outer_word u c w) as [->|[(-> & -> & H)|[-> ->]]]; auto.
    + left. simpl. rewrite nth_set_other by auto. auto.
  - intros i l' now _ _. left. simpl. rewrite inner_thr. auto.
  - intros n _. left. simpl. rewrite now_thr. auto.
  - intros l' now El. cbv zeta. simpl v_thr. destruct (Nat.eq_dec u t) as [<-|Hn].
    + destruct (nth_set u u [] [] (v_thr w)) as [->| ->]; auto. right. right. right. repeat split; eauto.
    + left. rewrite nth_set_other by auto. auto.
Qed.

Inductive rest_aok : list micro -> Prop :=
| AO ops : rest_aok (flat_map (@asynchronous V E) ops)
| AOc ops : rest_aok (MFeed OCmp :: flat_map (@asynchronous V E) ops)
| AOn v ops : rest_aok (MFeed (ONext v) :: MFeed OCmp :: flat_map (@asynchronous V E) ops)
| AOr s ops : rest_aok (MRead _ _ s :: MFeed (OSub s) :: flat_map (@asynchronous V E) ops)
| AOk s l ops : rest_aok (MCheck E s l :: MFeed (OSub s) :: flat_map (@asynchronous V E) ops)
| AOs s ops : rest_aok (MFeed (OSub s) :: flat_map (@asynchronous V E) ops).
Lemma alt_ops ops : alt (flat_map lm (flat_map (@asynchronous V E) ops)).
Proof. induction ops as [|[] ops IH]; simpl; try constructor; auto. Qed.
Lemma alt_rest l : rest_aok l -> alt (flat_map lm l).
Proof. intros H. destruct H; simpl; try constructor; try apply alt_ops. Qed.
Lemma rest_astep t m ms (b : bst) : rest_aok (m :: ms) -> rest_aok (fst (small t m b) ++ ms).
Proof.
  intros H. inversion H as [ops Q|ops Q|v ops Q|s ops Q|s l ops Q|s ops Q]; subst; simpl.
  - destruct ops as [|[] ops]; simpl in Q; try discriminate; injection Q as <- <-; simpl; try apply AO.
    + destruct (b_cell b); simpl; [apply AOn|apply AOc].
    + destruct (is_closed (b_w b)); simpl; [apply AOr|apply AOs].
  - apply AO.
  - apply AOc.
  - apply AOk.
  - apply AOs.
  - apply AO.
Qed.

Lemma astep_cases (Q : bst -> Prop) b t k :
  Q b ->
  (inside t (b_w b) = true -> (~ ((exists u x y, v_lock (b_w b) = Held u x y) /\ v_lock (step (b_w b) (t, k)) = Poisoned)) ->
     Q (with_w (step (b_w b) (t, k)) b)) ->
  ((exists u x y, v_lock (b_w b) = Held u x y) -> v_lock (step (b_w b) (t, k)) = Poisoned -> Q (with_w (step (b_w b) (t, k)) (with_rest (set_nth t [] (b_rest b)) b))) ->
  (forall m ms, inside t (b_w b) = false -> nth t (b_rest b) [] = m :: ms ->
     Q (with_rest (set_nth t (fst (small t m b) ++ ms) (b_rest b)) (snd (small t m b)))) ->
  Q (bstep b (t, k)).
Proof.
  intros H0 H1 H2 H3. unfold StoreConcModel.bstep. destruct (inside t (b_w b)) eqn:Ei.
  - specialize (H1 eq_refl). assert (G : forall b : bst, with_rest (b_rest b) b = b) by (intros []; auto).
    destruct (v_lock (b_w b)) eqn:E1; try (rewrite G; apply H1; intros [(u & x & y & F) _]; discriminate).
    destruct (v_lock (step (b_w b) (t, k))) eqn:E2; try (rewrite G; apply H1; intros [_ F]; discriminate).
    apply H2; eauto.
  - destruct (nth t (b_rest b) []) as [|m ms] eqn:En; auto. specialize (H3 m ms eq_refl eq_refl).
    destruct (small t m b) as [ms' b']. exact H3.
Qed.

(** *** Nobody will be added. *)
Definition adds (s : nat) (c : cmd) : bool := match c with KTry (NAdd _ _ x) | KDefer (NAdd _ _ x) => x =? s | _ => false end.
Definition clean (s : nat) (w : st) : Prop :=
  v_from w s = None /\ ~ In (ADD s) (wait w) /\ forall t c, In c (nth t (v_thr w) []) -> adds s c = false.
Lemma clean_step s (w : st) tk : shape_ok w -> is_closed w = true -> clean s w -> clean s (step w tk).
Proof.
  intros Hs Hc (H1 & H2 & H3). destruct tk as [u k]. apply step_cases; auto.
  - split; auto.
  - intros c cs En Hl. assert (Hcc : adds s c = false) by (apply (H3 u); rewrite En; left; auto). split; [|split].
    + change (v_from (by_outer shuts u c cs w)) with (v_from (snd (outer shuts u c w))). destruct (outer_table shuts u c w) as (_ & -> & _). auto.
    + destruct (outer_wait shuts u c cs w) as [(E1 & _)|[(n & -> & _ & E1)|(n & a & b & -> & _ & Ea & Eb & _)]]; [rewrite E1; auto| |].
      * rewrite E1. intros F. apply in_app_or in F as [F|[F|[]]]; auto. subst. simpl in Hcc. rewrite Nat.eqb_refl in Hcc. discriminate.
      * rewrite Eb. rewrite Ea in H2. intros F. apply in_app_or in F as [F|[F|F]].
        -- apply H2, in_or_app; auto.
        -- subst. simpl in Hcc. rewrite Nat.eqb_refl in Hcc. discriminate.
        -- apply H2, in_or_app; auto.
    + intros t x. simpl. destruct (Nat.eq_dec u t) as [<-|Hn]; [|rewrite nth_set_other by auto; apply H3].
      rewrite nth_set_same by (apply nth_cons_lt in En; auto). intros F. apply in_app_or in F as [F|F].
      * destruct c as [[]| | | | | | | | | | |n|n| |]; simpl in F; unfold defer in F; rewrite ?Hc in F; simpl in F;
          repeat match goal with H : In _ (match ?x with _ => _ end) |- _ => destruct x; simpl in H
               | H : In _ (fst (match ?x with _ => _ end)) |- _ => destruct x; simpl in H
               | H : _ \/ _ |- _ => destruct H | H : False |- _ => destruct H end; subst; auto.
      * apply (H3 u). rewrite En. right; auto.
  - intros i l' now El _. pose proof (inner_waits shuts k El Hs) as Ew. split; [|split].
    + change (v_from (by_inner shuts u k i l' now w)) with (v_from (snd (inner shuts k i w))).
      destruct (inner_from shuts k i w s) as [->|[_ (ns & ->)]]; auto. exfalso. apply H2. rewrite Ew. left; auto.
    + intros F. apply H2. rewrite Ew. apply in_or_app; auto.
    + simpl. rewrite inner_thr. auto.
  - intros n El. pose proof (now_waits shuts w El) as Ew. split; [|split].
    + simpl. destruct n as [[]|x|x]; simpl; auto.
      * unfold off. cases; auto. rewrite tell_from. auto.
      * unfold upd. destruct (Nat.eqb_spec s x) as [->|]; auto. exfalso. apply H2. rewrite Ew. left; auto.
    + intros F. apply H2. rewrite Ew. right; auto.
    + simpl. rewrite now_thr. auto.
  - intros l' now El. split; [|split]; auto.
    + intros F. apply H2. rewrite (panic_waits shuts El Hs). apply in_or_app; auto.
    + intros t c. simpl. destruct (nth_set u t [] [] (v_thr w)) as [->| ->]; [intros []|apply H3].
  - intros El. split; [|split]; auto. rewrite (unlock_waits w El). auto.
Qed.
Lemma unused_clean s (w : st) : all_ok w -> v_used w s = false -> clean s w.
Proof.
  intros H Hu. pose proof (b_A (a_base H) s) as A. rewrite Hu in A. simpl in A. split; [|split].
  - destruct (v_from w s); auto. simpl in A. lia.
  - intros F. apply sum_in with (f := nA s) in F. simpl in F. rewrite Nat.eqb_refl in F. simpl in F. lia.
  - intros t c F. destruct (adds s c) eqn:Q; auto. exfalso.
    assert (T : total (fA s) (v_thr w) = 0) by lia.
    assert (G : forall l : list (list cmd), total (fA s) l = 0 -> In c (nth t l []) -> fA s c = 0).
    { clear. intros l. revert t. induction l as [|x l IH]; intros [|t] T F; simpl in *; try tauto.
      - assert (T' : sum (fA s) x = 0) by (unfold total in T; rewrite sum_cons in T; lia). apply sum_in with (f := fA s) in F. lia.
      - apply (IH t); auto. unfold total in *; rewrite sum_cons in T; lia. }
    specialize (G _ T F). destruct c as [[]| | | | | | | | | | |[]|[]| |]; simpl in *; try discriminate;
      apply Nat.eqb_eq in Q; subst; rewrite Nat.eqb_refl in G; discriminate.
Qed.
Lemma clean_vals s t (w : st) : all_ok w -> clean s w -> vals t (d_told (v_dest w s)) = [].
Proof.
  intros H (F & _ & _). destruct (told_log shuts s (a_base H)) as [->|[(c & Hc & -> & _)|(i & G & _)]]; auto; [|congruence].
  simpl. apply vals_end; auto.
Qed.
Lemma feed_clean s t o (w : st) : t < length (v_thr w) -> clean s w -> clean s (feed t o w).
Proof.
  intros Hl (H1 & H2 & H3). split; [|split]; auto. intros u c. rewrite feed_nth by auto. destruct (u =? t); [|apply H3].
  intros [<-|[]]. auto.
Qed.
Lemma feed_sent t o (w : st) u : t < length (v_thr w) -> nth t (v_thr w) [] = [] -> sent u (feed t o w) = sent u w.
Proof.
  intros Hl Hn. unfold sent. rewrite feed_nth by auto. change (wait (feed t o w)) with (wait w). change (v_log (feed t o w)) with (v_log w).
  destruct (Nat.eqb_spec u t) as [->|_]; auto. rewrite Hn. auto.
Qed.

(** *** The invariant. *)
Variable progs : list (list (op V E)).
Definition value_at (l : list (item V)) : option V := fold_left (reduce f) (map snd l) None.
Definition past (b : bst) (o : option V) : Prop := exists G G', b_log b = G ++ G' /\ o = value_at G.
Record abeh (b : bst) : Prop := {
  k_ok : ok shuts b;
  k_rest : forall t, rest_aok (nth t (b_rest b) []);
  k_alt : forall t, alt (word t b);
  k_once : forall t, sent t (b_w b) = [] \/
             (length (sent t (b_w b)) <= 1 /\ (is_closed (b_w b) = true \/ forall l, word t b <> P :: l));
  k_none : forall t, ~ In OCmp (nth t progs []) -> sent t (b_w b) = [] /\ word t b = [];
  k_cell : b_cell b = value_at (b_log b);
  k_val : forall t v, In v (line t (b_w b)) \/ In (MFeed (ONext v)) (nth t (b_rest b) []) -> past b (Some v);
  k_read : forall t s ms, nth t (b_rest b) [] = MRead V E s :: ms -> is_closed (b_w b) = true;
  k_check : forall t s l ms, nth t (b_rest b) [] = MCheck E s l :: ms ->
              is_closed (b_w b) = true /\ exists o, l = shown o /\ past b o;
  k_greet : forall s g, b_greet b s = Some g -> is_closed (b_w b) = true /\ clean s (b_w b) /\ exists o, g = shown o /\ past b o
}.
Lemma alt_tl l : alt (P :: l) -> exists l', l = C :: l' /\ alt l'.
Proof. intros H. inversion H; subst. eauto. Qed.
Lemma alt_tlC l : alt (C :: l) -> alt l.
Proof. intros H. inversion H; subst. auto. Qed.
Lemma in_ops v ops : ~ In (MFeed (ONext v)) (flat_map (@asynchronous V E) ops).
Proof. induction ops as [|[] ops IH]; simpl; intros H; repeat destruct H as [H|H]; try discriminate; auto. Qed.
Lemma ops_read ops s (ms : list micro) : flat_map (@asynchronous V E) ops <> MRead V E s :: ms.
Proof. destruct ops as [|[] ops]; discriminate. Qed.
Lemma ops_check ops s l (ms : list micro) : flat_map (@asynchronous V E) ops <> MCheck E s l :: ms.
Proof. destruct ops as [|[] ops]; discriminate. Qed.

Lemma past_log (b b' : bst) o : b_log b' = b_log b -> past b o -> past b' o.
Proof. unfold past. intros ->. auto. Qed.
Lemma past_more (b b' : bst) o i : b_log b' = b_log b ++ [i] -> past b o -> past b' o.
Proof. unfold past. intros -> (G & G' & -> & ->). exists G, (G' ++ [i]). rewrite app_assoc. auto. Qed.
Lemma past_now (b : bst) : b_cell b = value_at (b_log b) -> past b (b_cell b).
Proof. intros ->. exists (b_log b), []. rewrite app_nil_r. auto. Qed.

Lemma letters_unbegun (l : list cmd) : length (unbegun l) = length (filter (fun x => match x with P => true | C => false end) (flat_map lc l)).
Proof. induction l as [|c l IH]; auto. change (c :: l) with ([c] ++ l). rewrite unbegun_app, !flat_map_app, filter_app, !app_length, IH. destruct c as [[]| | | | | | | | | | |n|n| |]; auto. Qed.
Lemma once_step (b : bst) t k (b' : bst) u : abeh b -> b_w b' = step (b_w b) (t, k) ->
  (word u b' = word u b \/ (word u b = C :: word u b' /\ is_closed (b_w b') = true) \/ word u b = P :: word u b' \/ word u b' = []) ->
  (forall v cs, t = u -> nth u (v_thr (b_w b)) [] = KNext E v :: cs -> unbegun (nth u (v_thr (b_w b')) []) = unbegun cs -> word u b' <> word u b) ->
  alt (word u b') /\
  (sent u (b_w b') = [] \/ (length (sent u (b_w b')) <= 1 /\ (is_closed (b_w b') = true \/ forall l, word u b' <> P :: l))) /\
  (~ In OCmp (nth u progs []) -> sent u (b_w b') = [] /\ word u b' = []).
Proof.
  intros H Ew Hw Hdiff. pose proof (o_all (k_ok H)) as Hall. pose proof (k_alt H u) as Ha. split; [|split].
  - destruct Hw as [->|[[Q _]|[Q| ->]]]; auto; [| |constructor].
    + rewrite Q in Ha. apply alt_tlC; auto.
    + rewrite Q in Ha. apply alt_tl in Ha as (l & -> & ?). constructor; auto.
  - destruct (sent_step shuts t k u Hall) as (x & Hx & Hc). rewrite <- Ew in Hx, Hc.
    destruct Hc as [->|(Hc & v & cs & <- & -> & En & Eu)].
    + rewrite app_nil_r in Hx. apply sub_len in Hx. destruct (k_once H u) as [Q|[Q1 Q2]].
      * rewrite Q in Hx. left. destruct (sent u (b_w b')); auto. simpl in Hx. lia.
      * right. split; [lia|]. destruct Q2 as [Q2|Q2]; [left; rewrite Ew; apply isc_step; auto|].
        destruct Hw as [->|[[_ Q]|[Q| ->]]]; auto; [destruct (Q2 _ Q)|]. right. discriminate.
    + right. assert (Hd : exists l, word t b = P :: l) by (unfold word; rewrite En; simpl; eauto). destruct Hd as [l Hd].
      destruct (k_once H t) as [Q|[_ [Q|Q]]]; [|congruence|destruct (Q _ Hd)].
      apply sub_len in Hx. rewrite Q in Hx. simpl in Hx. split; auto. right. intros l' F.
      destruct Hw as [Q'|[[Q' _]|[Q'|Q']]]; try congruence.
      * destruct (Hdiff v cs eq_refl En Eu Q').
      * rewrite Q' in Ha. apply alt_tl in Ha as (? & ? & _). congruence.
  - intros Hn. destruct (k_none H u Hn) as [N1 N2]. destruct (sent_step shuts t k u Hall) as (x & Hx & Hc). rewrite <- Ew in Hx.
    rewrite N2 in Hw. assert (Hw' : word u b' = []) by (destruct Hw as [Q|[[Q _]|[Q|Q]]]; auto; discriminate). split; auto.
    destruct Hc as [->|(Hc & v & cs & <- & -> & En & Eu)].
    + rewrite N1 in Hx. apply sub_len in Hx. destruct (sent u (b_w b')); auto. simpl in Hx. lia.
    + exfalso. unfold word in N2. rewrite En in N2. discriminate.
Qed.

Lemma panicked (w : st) t k : (exists u x y, v_lock w = Held u x y) -> v_lock (step w (t, k)) = Poisoned -> nth t (v_thr (step w (t, k))) [] = [].
Proof.
  intros (u & x & y & Hl). apply (@step_cases V E shuts (fun w' => v_lock w' = Poisoned -> nth t (v_thr w') [] = [])); try congruence.
  - intros c cs _ _. change (v_lock (by_outer shuts t c cs w)) with (v_lock (snd (outer shuts t c w))).
    assert (G : v_lock (snd (outer shuts t c w)) = v_lock w); [|congruence].
    destruct c as [[]| | | | | | |z|z| | |[| |n]|[| |n]| |]; simpl; unfold defer; rewrite ?Hl; cases; tellr; simpl; auto.
  - intros i l' now _ _. discriminate.
  - intros n _. discriminate.
  - intros l' now _ _. simpl. destruct (Nat.lt_ge_cases t (length (v_thr w))); [apply nth_set_same; auto|].
    apply nth_overflow. rewrite len_set. auto.
  - intros _. discriminate.
Qed.
Lemma feed_word (b : bst) t o ms r u : t < length (v_thr (b_w b)) -> nth t (v_thr (b_w b)) [] = [] -> nth t (b_rest b) [] = MFeed o :: ms ->
  nth t r [] = ms -> (forall u, u <> t -> nth u r [] = nth u (b_rest b) []) ->
  word u (with_rest r (with_w (feed t o (b_w b)) b)) = word u b.
Proof.
  intros Hl Hn Er Rt Ro. unfold word. simpl b_w. simpl b_rest. rewrite feed_nth by auto. destruct (Nat.eqb_spec u t) as [->|Hne].
  - rewrite Hn, Rt, Er. destruct o; auto.
  - rewrite Ro by auto. auto.
Qed.

Lemma abeh_step b tk : abeh b -> abeh (bstep b tk).
Proof.
  intros H. pose proof (o_all (k_ok H)) as Hall. destruct tk as [t k].
  assert (Hok : ok shuts (bstep b (t, k))) by apply ok_step, (k_ok H). revert Hok.
  assert (Hin : forall r, (forall u, rest_aok (nth u r [])) -> (forall u m, In m (nth u r []) -> In m (nth u (b_rest b) [])) ->
    (forall u m ms, nth u r [] = m :: ms -> nth u (b_rest b) [] = m :: ms) ->
    let b' := with_w (step (b_w b) (t, k)) (with_rest r b) in
    (forall u, word u b' = word u b \/ (word u b = C :: word u b' /\ is_closed (b_w b') = true) \/ word u b = P :: word u b' \/ word u b' = []) ->
    (forall u v cs, t = u -> nth u (v_thr (b_w b)) [] = KNext E v :: cs -> unbegun (nth u (v_thr (b_w b')) []) = unbegun cs -> word u b' <> word u b) ->
    ok shuts b' -> abeh b').
  { intros r R1 R2 R3 b' W1 W2 Hok.
    assert (Hone := fun u => @once_step b t k b' u H eq_refl (W1 u) (W2 u)).
    constructor; auto.
    - intros u. apply Hone.
    - intros u. apply Hone.
    - intros u. apply Hone.
    - apply (k_cell H).
    - intros u v F. apply past_log with (b := b); auto. apply (k_val H u). destruct F as [F|F]; auto.
      left. eapply sub_in; [|exact F]. apply (line_step shuts (t, k) u (b_shape (a_base Hall)) (a_own Hall)).
    - intros u s ms F. apply isc_step. apply R3 in F. apply (k_read H _ F).
    - intros u s l ms F. apply R3 in F. destruct (k_check H _ F) as (Hc & o & E1 & E2). split; [apply isc_step; auto|].
      exists o. split; auto.
    - intros s g F. destruct (k_greet H s F) as (Hc & Hcl & o & E1 & E2). split; [apply isc_step; auto|]. split; [|exists o; split; auto].
      apply clean_step; auto. apply (b_shape (a_base Hall)). }
  apply (@astep_cases (fun b' => ok shuts b' -> abeh b')); auto.
  - intros _ Hng Hok. replace (with_w (step (b_w b) (t, k)) b) with (with_w (step (b_w b) (t, k)) (with_rest (b_rest b) b)) in * by (destruct b; auto).
    apply Hin; auto.
    + apply (k_rest H).
    + intros u. unfold word. simpl b_w. simpl b_rest. destruct (step_word (b_w b) t k u) as [->|[[-> Q]|[->|(_ & Q & _ & x & y & Q')]]]; auto.
      exfalso. apply Hng. split; eauto.
    + intros u v cs -> E1 E2 F. unfold word in F. simpl b_w in *. simpl b_rest in F. apply app_inv_tail in F.
      apply (f_equal (fun l => length (filter (fun x => match x with P => true | C => false end) l))) in F.
      rewrite <- !letters_unbegun, E1, E2 in F. simpl in F. lia.
  - intros Hh Hp Hok. assert (Hnil := panicked (b_w b) t k Hh Hp). apply Hin; auto.
    + intros u. destruct (nth_set t u [] [] (b_rest b)) as [->| ->]; [apply (AO [])|apply (k_rest H)].
    + intros u m. destruct (nth_set t u [] [] (b_rest b)) as [->| ->]; auto. intros [].
    + intros u m ms. destruct (nth_set t u [] [] (b_rest b)) as [->| ->]; auto. discriminate.
    + intros u. destruct (Nat.eq_dec u t) as [->|Hn].
      * right. right. right. unfold word. simpl b_w. simpl b_rest. rewrite Hnil.
        destruct (Nat.lt_ge_cases t (length (b_rest b))); [rewrite nth_set_same; auto|]. rewrite nth_overflow; auto. rewrite len_set. auto.
      * unfold word. simpl b_w. simpl b_rest. rewrite nth_set_other by auto.
        destruct (step_word (b_w b) t k u) as [->|[[-> Q]|[->|(_ & Q & F & _)]]]; auto; congruence.
    + intros u v cs <- E1 E2 F. unfold word in F. simpl b_w in *. simpl b_rest in F. rewrite Hnil, E1 in F.
      destruct (Nat.lt_ge_cases t (length (b_rest b))); [rewrite nth_set_same in F by auto; discriminate|].
      rewrite nth_overflow in F by (rewrite len_set; auto). discriminate.
  - intros m ms Hi En Hok. destruct (outside t (b_w b) Hi) as [Ht Hlk].
    assert (Hlen : t < length (v_thr (b_w b))) by (rewrite (o_len (k_ok H)); apply nth_cons_lt in En; auto).
    set (r := set_nth t (fst (small t m b) ++ ms) (b_rest b)) in *.
    assert (Rt : nth t r [] = fst (small t m b) ++ ms) by (apply nth_set_same; apply nth_cons_lt in En; auto).
    assert (Ro : forall u, u <> t -> nth u r [] = nth u (b_rest b) []) by (intros; apply nth_set_other; auto).
    pose proof (k_rest H t) as Hro. rewrite En in Hro.
    assert (Hrest : forall u, rest_aok (nth u r [])).
    { intros u. destruct (Nat.eq_dec u t) as [->|Hn]; [rewrite Rt; apply rest_astep; auto|rewrite Ro by auto; apply (k_rest H)]. }
    assert (Hlog : b_log (snd (small t m b)) = b_log b \/ exists v, m = MStore _ v).
    { destruct m; simpl; eauto; left; unfold greet; cases; auto. }
    assert (Hpast : forall o, past b o -> past (with_rest r (snd (small t m b))) o).
    { intros o. destruct Hlog as [Q|(v & ->)]; [apply past_log; auto|apply past_more with (i := (t, v)); auto]. }
    assert (Hgen : forall b', b_w b' = b_w b -> b_rest b' = r -> ok shuts b' ->
      (word t b' = word t b \/ word t b = P :: word t b') ->
      b_cell b' = value_at (b_log b') -> (forall o, past b o -> past b' o) ->
      (forall v, In (MFeed (ONext v)) (nth t r []) -> past b' (Some v)) ->
      (forall s ms', nth t r [] = MRead V E s :: ms' -> is_closed (b_w b) = true) ->
      (forall s l ms', nth t r [] = MCheck E s l :: ms' -> is_closed (b_w b) = true /\ exists o, l = shown o /\ past b' o) ->
      (forall s g, b_greet b' s = Some g -> b_greet b s = Some g \/
         (is_closed (b_w b) = true /\ v_used (b_w b) s = false /\ exists o, g = shown o /\ past b' o)) -> abeh b').
    { intros b' Ew Er Hok' Hw Hc Hp Hv Hr1 Hr2 Hg.
      assert (Hwo : forall u, u <> t -> word u b' = word u b) by (intros u Hn; unfold word; rewrite Ew, Er, Ro by auto; auto).
      constructor; rewrite ?Ew, ?Er; auto.
      - intros u. destruct (Nat.eq_dec u t) as [->|Hn]; [|rewrite Hwo by auto; apply (k_alt H)].
        pose proof (k_alt H t) as Q. destruct Hw as [->|Hw]; auto. rewrite Hw in Q. apply alt_tl in Q as (l & -> & ?). constructor; auto.
      - intros u. destruct (Nat.eq_dec u t) as [->|Hn]; [|rewrite Hwo by auto; apply (k_once H)].
        destruct Hw as [->|Hw]; [apply (k_once H)|]. destruct (k_once H t) as [Q|[Q1 [Q2|Q2]]]; auto.
        destruct (Q2 _ Hw).
      - intros u Hu. destruct (k_none H u Hu) as [N1 N2]. split; auto. destruct (Nat.eq_dec u t) as [->|Hn]; [|rewrite Hwo; auto].
        destruct Hw as [->|Hw]; auto. rewrite N2 in Hw. discriminate.
      - intros u v [F|F]; [apply Hp, (k_val H u); auto|]. destruct (Nat.eq_dec u t) as [->|Hn]; auto.
        rewrite Ro in F by auto. apply Hp, (k_val H u). auto.
      - intros u s ms' F. destruct (Nat.eq_dec u t) as [->|Hn]; [apply (Hr1 _ _ F)|]. rewrite Ro in F by auto. apply (k_read H _ F).
      - intros u s l ms' F. destruct (Nat.eq_dec u t) as [->|Hn]; [apply (Hr2 _ _ _ F)|]. rewrite Ro in F by auto.
        destruct (k_check H _ F) as (Q & o & E1 & E2). split; eauto.
      - intros s g F. destruct (Hg s g F) as [Q|(Q1 & Q2 & Q3)].
        + destruct (k_greet H s Q) as (Q1 & Q2 & o & Q3 & Q4). repeat split; auto; try apply Q2. eauto.
        + split; auto. split; auto. apply unused_clean; auto. }
    assert (Hfeed : forall o, m = MFeed o -> (forall v, o = ONext v -> past b (Some v)) -> rest_aok ms -> (forall v, ~ In (MFeed (ONext v)) ms) ->
      (forall s ms', ms <> MRead V E s :: ms') -> (forall s l ms', ms <> MCheck E s l :: ms') ->
      abeh (with_rest r (snd (small t m b)))).
    { intros o -> Hv Hms Hnf N1 N2. simpl in Rt. simpl snd in *.
      assert (Hw : forall u, word u (with_rest r (with_w (feed t o (b_w b)) b)) = word u b) by (intros u; apply feed_word with (ms := ms); auto).
      constructor; auto; simpl b_w; simpl b_rest.
      - intros u. rewrite Hw. apply (k_alt H).
      - intros u. rewrite Hw, feed_sent by auto. apply (k_once H).
      - intros u. rewrite Hw, feed_sent by auto. apply (k_none H).
      - apply (k_cell H).
      - intros u v F. apply Hpast. rewrite feed_line in F by auto. destruct (Nat.eqb_spec u t) as [->|Hn].
        + rewrite Rt in F. destruct F as [F|F]; [|destruct (Hnf _ F)]. apply in_app_or in F as [F|F]; [apply (k_val H t); auto|].
          destruct o; simpl in F; try tauto. destruct F as [->|[]]. auto.
        + rewrite app_nil_r, Ro in F by auto. apply (k_val H u); auto.
      - intros u s ms' F. change (is_closed (feed t o (b_w b))) with (is_closed (b_w b)). destruct (Nat.eq_dec u t) as [->|Hn].
        + rewrite Rt in F. destruct (N1 _ _ F).
        + rewrite Ro in F by auto. apply (k_read H _ F).
      - intros u s l ms' F. change (is_closed (feed t o (b_w b))) with (is_closed (b_w b)). destruct (Nat.eq_dec u t) as [->|Hn].
        + rewrite Rt in F. destruct (N2 _ _ _ F).
        + rewrite Ro in F by auto. destruct (k_check H _ F) as (Q & o' & E1 & E2). split; eauto.
      - intros s g F. change (is_closed (feed t o (b_w b))) with (is_closed (b_w b)).
        destruct (k_greet H s F) as (Q1 & Q2 & o' & Q3 & Q4). split; auto. split; [apply feed_clean; auto|eauto]. }
    assert (Hops : forall ops, (forall v, ~ In (MFeed (ONext v)) (flat_map (@asynchronous V E) ops)) /\
      (forall s ms', flat_map (@asynchronous V E) ops <> MRead V E s :: ms') /\ (forall s l ms', flat_map (@asynchronous V E) ops <> MCheck E s l :: ms')).
    { intros ops. split; [|split]; intros; [apply in_ops|apply ops_read|apply ops_check]. }
    inversion Hro as [ops Q|ops Q|v ops Q|s ops Q|s l ops Q|s ops Q]; subst.
    + destruct ops as [|[v|e| | |s|s] ops]; simpl in Q; try discriminate; injection Q as <- <-; destruct (Hops ops) as (O1 & O2 & O3).
      * apply Hgen; auto; try rewrite Rt; simpl.
        -- left. unfold word. simpl b_rest. simpl b_w. rewrite Rt, En. auto.
        -- unfold value_at. rewrite map_app, fold_left_app. simpl. rewrite (k_cell H). auto.
        -- intros x F. destruct (O1 _ F).
        -- intros s ms' F. destruct (O2 _ _ F).
        -- intros s l ms' F. destruct (O3 _ _ _ F).
      * apply (Hfeed (OErr e)); auto; try apply AO. discriminate.
      * apply Hgen; auto; try rewrite Rt; simpl.
        -- unfold word. simpl b_rest. simpl b_w. rewrite Rt, En, Ht. simpl. destruct (b_cell b); simpl; auto.
        -- apply (k_cell H).
        -- intros x F. apply (Hpast (Some x)). pose proof (past_now b (k_cell H)) as Q. destruct (b_cell b) as [y|]; simpl in F.
           ++ destruct F as [F|[F|F]]; [injection F as ->; auto|discriminate|destruct (O1 _ F)].
           ++ destruct F as [F|F]; [discriminate|destruct (O1 _ F)].
        -- intros s ms' F. destruct (b_cell b); discriminate.
        -- intros s l ms' F. destruct (b_cell b); discriminate.
      * apply (Hfeed OUns); auto; try apply AO. discriminate.
      * apply Hgen; auto; try rewrite Rt; simpl.
        -- left. unfold word. simpl b_rest. simpl b_w. rewrite Rt, En. simpl. destruct (is_closed (b_w b)); auto.
        -- apply (k_cell H).
        -- intros x F. exfalso. destruct (is_closed (b_w b)); simpl in F; repeat destruct F as [F|F]; try discriminate; apply (O1 _ F).
        -- intros s' ms'. destruct (is_closed (b_w b)); auto. discriminate.
        -- intros s' l ms'. destruct (is_closed (b_w b)); discriminate.
      * apply (Hfeed (OLeave s)); auto; try apply AO. discriminate.
    + destruct (Hops ops) as (O1 & O2 & O3). apply (Hfeed OCmp); auto; try apply AO. discriminate.
    + destruct (Hops ops) as (O1 & O2 & O3). apply (Hfeed (ONext v)); auto; try apply AOc; try discriminate.
      * intros x F. injection F as <-. apply (k_val H t). right. rewrite En. left. auto.
      * intros x [F|F]; [discriminate|apply (O1 _ F)].
    + destruct (Hops ops) as (O1 & O2 & O3). apply Hgen; auto; try rewrite Rt; simpl.
      * left. unfold word. simpl b_rest. simpl b_w. rewrite Rt, En. auto.
      * apply (k_cell H).
      * intros x F. repeat destruct F as [F|F]; try discriminate. destruct (O1 _ F).
      * discriminate.
      * intros s' l ms' F. injection F as <- <- _. split; [apply (k_read H _ En)|]. exists (b_cell b). split; auto. apply (Hpast (b_cell b)), past_now, (k_cell H).
    + destruct (Hops ops) as (O1 & O2 & O3). destruct (k_check H _ En) as (Hc & o & E1 & E2). apply Hgen; auto; try rewrite Rt; simpl.
      * unfold greet. destruct (seen_error (b_w b)), (b_greet b s), (v_used (b_w b) s); auto.
      * left. unfold word. simpl b_rest. simpl b_w. rewrite Rt, En. unfold greet. destruct (seen_error (b_w b)), (b_greet b s), (v_used (b_w b) s); auto.
      * unfold greet. destruct (seen_error (b_w b)), (b_greet b s), (v_used (b_w b) s); apply (k_cell H).
      * intros x F. repeat destruct F as [F|F]; try discriminate. destruct (O1 _ F).
      * discriminate.
      * intros s' g F. unfold greet in F. destruct (seen_error (b_w b)), (b_greet b s) eqn:Eg, (v_used (b_w b) s) eqn:Eu; auto.
        simpl in F. unfold upd in F. destruct (Nat.eqb_spec s' s) as [->|]; auto. injection F as <-. right. split; auto. split; auto.
        exists o. split; auto. apply past_log with (b := b); auto. unfold greet. rewrite Eg, Eu. auto.
    + destruct (Hops ops) as (O1 & O2 & O3). apply (Hfeed (OSub s)); auto; try apply AO. discriminate.
Qed.

Lemma reduce_eq (l : list V) : fold_left (reduce f) l None = reduced f l.
Proof.
  destruct l as [|x l]; auto. simpl. revert x. induction l as [|y l IH]; intros x; auto. simpl. rewrite IH. auto.
Qed.
Notation astart := (bstart (@None V) (@asynchronous V E) progs).
Notation reach ts := (brun ts astart).
Lemma nth_aops t : nth t (b_rest astart) [] = flat_map (@asynchronous V E) (nth t progs []).
Proof. simpl. change (@nil micro) with (flat_map (@asynchronous V E) []). rewrite map_nth. auto. Qed.
Lemma word_start t : word t astart = flat_map lm (flat_map (@asynchronous V E) (nth t progs [])).
Proof. unfold word. rewrite nth_aops. simpl b_w. rewrite start_thr. auto. Qed.
Lemma abeh_start : abeh astart.
Proof.
  assert (Hs : forall t, sent t (b_w astart) = []) by (intros t; unfold sent; simpl b_w; rewrite start_thr; auto).
  constructor.
  - apply ok_start.
  - intros t. rewrite nth_aops. apply AO.
  - intros t. rewrite word_start. apply alt_ops.
  - intros t. auto.
  - intros t Hn. split; auto. rewrite word_start. induction (nth t progs []) as [|[] l IH]; simpl in *; auto; destruct Hn; auto.
  - reflexivity.
  - intros t v [F|F].
    + unfold line in F. simpl b_w in F. rewrite start_thr in F. destruct F.
    + rewrite nth_aops in F. destruct (in_ops _ _ F).
  - intros t s ms F. rewrite nth_aops in F. destruct (ops_read _ F).
  - intros t s l ms F. rewrite nth_aops in F. destruct (ops_check _ F).
  - discriminate.
Qed.
Lemma abeh_run ts b : abeh b -> abeh (brun ts b).
Proof. revert b. induction ts; simpl; auto. intros b H. apply IHts, abeh_step, H. Qed.
Lemma abeh_reach ts : abeh (reach ts).
Proof. apply abeh_run, abeh_start. Qed.

(** *** What follows. *)
Lemma vals_in t v (l : list call) : In v (vals t l) <-> In (Nxt (t, v)) l.
Proof.
  induction l as [|c l IH]; simpl; [tauto|]. rewrite in_app_iff, IH. destruct c as [[u x]| | |]; simpl; try (split; intros [F|F]; try tauto; discriminate).
  destruct (Nat.eqb_spec u t) as [->|Hn]; simpl; split; intros [F|F]; try tauto.
  - destruct F as [->|[]]; auto.
  - injection F as ->. auto.
  - injection F as -> _. tauto.
Qed.
Theorem async_values ts s : let b := reach ts in
  (forall t v, In (Nxt (t, v)) (told b s) -> exists G G', b_log b = G ++ G' /\ reduced f (map snd G) = Some v) /\
  (forall g, b_greet b s = Some g -> exists G G', b_log b = G ++ G' /\ g = as_list (reduced f (map snd G))).
Proof.
  intros b. pose proof (abeh_reach ts) as H. fold b in H. pose proof (o_all (k_ok H)) as Ha. split.
  - intros t v F. apply vals_in in F. apply (sub_in v (told_sent shuts s t Ha)) in F.
    assert (F' : In v (line t (b_w b))).
    { unfold sent in F. unfold line. rewrite !in_app_iff in *. destruct F as [F|[F|F]]; auto. right. right.
      clear -F. induction (nth t (v_thr (b_w b)) []) as [|c l IH]; simpl in *; auto. rewrite in_app_iff in *. destruct F as [F|F]; auto. left.
      destruct c as [[]| | | | | | | | | | |[[[]| | |]| |]|[[[]| | |]| |]| |]; simpl in *; auto. }
    destruct (k_val H t v (or_introl F')) as (G & G' & E1 & E2). exists G, G'. split; auto. rewrite <- reduce_eq. auto.
  - intros g F. destruct (k_greet H s F) as (_ & _ & o & -> & G & G' & E1 & ->). exists G, G'. rewrite <- reduce_eq. auto.
Qed.
Theorem async_once ts s t : length (vals t (told (reach ts) s)) <= 1.
Proof.
  pose proof (abeh_reach ts) as H. pose proof (o_all (k_ok H)) as Ha. pose proof (sub_len (told_sent shuts s t Ha)) as L. unfold told.
  destruct (k_once H t) as [Q|[Q _]]; [rewrite Q in L; simpl in L|]; lia.
Qed.
Theorem async_greeted ts s g t : b_greet (reach ts) s = Some g -> vals t (told (reach ts) s) = [].
Proof. intros F. pose proof (abeh_reach ts) as H. apply clean_vals; [apply (k_ok H)|apply (k_greet H s F)]. Qed.
Theorem async_grammar ts s : proper (shuts s) (v_dest (b_w (reach ts)) s).
Proof. apply (o_prop (k_ok (abeh_reach ts))). Qed.
Theorem async_one ts s t : (forall u, u <> t -> ~ In OCmp (nth u progs [])) ->
  forall u v u' v' l, told (reach ts) s = Nxt (u, v) :: l -> u = t /\ ~ In (Nxt (u', v')) l.
Proof.
  intros Hn u v u' v' l Q. pose proof (abeh_reach ts) as H. pose proof (o_all (k_ok H)) as Ha.
  assert (G : forall u v, In (Nxt (u, v)) (told (reach ts) s) -> u = t).
  { intros x y F. destruct (Nat.eq_dec x t) as [|Hx]; auto. exfalso. apply vals_in in F. apply (sub_in y (told_sent shuts s x Ha)) in F.
    rewrite (proj1 (k_none H x (Hn x Hx))) in F. destruct F. }
  assert (u = t) by (apply (G u v); rewrite Q; left; auto). split; auto. intros F.
  assert (u' = t) by (apply (G u' v'); rewrite Q; right; auto). subst.
  pose proof (async_once ts s t) as L. rewrite Q in L. simpl in L. rewrite Nat.eqb_refl in L. simpl in L. apply vals_in in F. destruct (vals t l); [destruct F|simpl in L; lia].
Qed.

(** *** Who comes late. *)
Section Late.
Variable b1 : bst.
Variable s : nat.
Definition since (b : bst) (o : option V) : Prop := exists D1 D2, b_log b = b_log b1 ++ D1 ++ D2 /\ o = value_at (b_log b1 ++ D1).
Definition handed (b : bst) : Prop := v_used (b_w b) s = true \/
  exists t, In (KOp (OSub s)) (nth t (v_thr (b_w b)) []) \/ exists ms, nth t (b_rest b) [] = MFeed (OSub s) :: ms.
Record late (b : bst) : Prop := {
  l_closed : is_closed (b_w b) = true;
  l_log : exists D, b_log b = b_log b1 ++ D;
  l_check : forall t l ms, nth t (b_rest b) [] = MCheck E s l :: ms -> exists o, l = shown o /\ since b o;
  l_greet : forall g, b_greet b s = Some g -> exists o, g = shown o /\ since b o;
  l_met : handed b -> b_greet b s <> None \/ seen_error (b_w b) = true
}.
Lemma since_log (b b' : bst) o : b_log b' = b_log b -> since b o -> since b' o.
Proof. unfold since. intros ->. auto. Qed.
Lemma since_more (b b' : bst) o i : b_log b' = b_log b ++ [i] -> since b o -> since b' o.
Proof. unfold since. intros -> (D1 & D2 & -> & ->). exists D1, (D2 ++ [i]). rewrite !app_assoc. auto. Qed.
Lemma late_step b tk : abeh b -> late b -> late (bstep b tk).
Proof.
  intros H L. destruct tk as [t k].
  assert (Hin : forall r, (forall u m ms, nth u r [] = m :: ms -> nth u (b_rest b) [] = m :: ms) ->
    late (with_w (step (b_w b) (t, k)) (with_rest r b))).
  { intros r R. constructor; simpl.
    - apply isc_step, (l_closed L).
    - apply (l_log L).
    - intros u l ms F. apply R in F. apply (l_check L _ F).
    - apply (l_greet L).
    - intros Hh. destruct (l_met L) as [F|F]; auto; [|right; apply err_step; auto].
      destruct Hh as [F|(u & [F|(ms & F)])].
      + apply used_step in F as [F|F]; [left; auto|right; eauto].
      + simpl in F. apply op_step in F. right. eauto.
      + simpl in F. apply R in F. right. eauto. }
  apply astep_cases; auto.
  - intros _ _. replace (with_w (step (b_w b) (t, k)) b) with (with_w (step (b_w b) (t, k)) (with_rest (b_rest b) b)) by (destruct b; auto).
    apply Hin; auto.
  - intros _ _. apply Hin. intros u m ms. destruct (nth_set t u [] [] (b_rest b)) as [->| ->]; auto. discriminate.
  - intros m ms Hi En. destruct (outside t (b_w b) Hi) as [Ht _].
    assert (Hlen : t < length (v_thr (b_w b))) by (rewrite (o_len (k_ok H)); apply nth_cons_lt in En; auto).
    set (r := set_nth t (fst (small t m b) ++ ms) (b_rest b)) in *.
    assert (Rt : nth t r [] = fst (small t m b) ++ ms) by (apply nth_set_same; apply nth_cons_lt in En; auto).
    assert (Ro : forall u, u <> t -> nth u r [] = nth u (b_rest b) []) by (intros; apply nth_set_other; auto).
    pose proof (k_rest H t) as Hro. rewrite En in Hro.
    assert (Hlog : b_log (snd (small t m b)) = b_log b \/ exists v, b_log (snd (small t m b)) = b_log b ++ [(t, v)]).
    { destruct m; simpl; eauto; left; unfold greet; cases; auto. }
    assert (Hsince : forall o, since b o -> since (with_rest r (snd (small t m b))) o).
    { intros o. destruct Hlog as [Q|(v & Q)]; [apply since_log; auto|apply since_more with (i := (t, v)); auto]. }
    assert (Hkeep : b_greet b s <> None \/ seen_error (b_w b) = true -> b_greet (snd (small t m b)) s <> None \/ seen_error (b_w (snd (small t m b))) = true).
    { intros [F|F].
      - left. destruct m; simpl; auto; unfold greet; cases; auto; simpl; unfold upd; destruct (s =? _); auto; discriminate.
      - right. destruct (small_w (reduce f) shown t m b) as [->|(o & _ & ->)]; auto. }
    assert (Hnow : since b (b_cell b)).
    { destruct (l_log L) as [D ED]. exists D, []. rewrite (k_cell H), ED, app_nil_r. auto. }
    constructor; simpl.
    + destruct (small_w (reduce f) shown t m b) as [->|(o & _ & ->)]; apply (l_closed L).
    + destruct (l_log L) as [D ED]. destruct Hlog as [->|(v & ->)]; rewrite ED; eauto. exists (D ++ [(t, v)]). rewrite app_assoc. auto.
    + intros u l ms' F. destruct (Nat.eq_dec u t) as [->|Hn].
      * rewrite Rt in F. inversion Hro as [ops Q|ops Q|v ops Q|x ops Q|x y ops Q|x ops Q]; subst; simpl in F; try discriminate; try (destruct (ops_check _ F)).
        -- destruct ops as [|[] ops]; simpl in Q; try discriminate; injection Q as <- <-; simpl in F; try (destruct (ops_check _ F)); try discriminate.
           ++ destruct (b_cell b); discriminate.
           ++ destruct (is_closed (b_w b)); discriminate.
        -- injection F as -> <- _. exists (b_cell b). split; auto.
      * rewrite Ro in F by auto. destruct (l_check L _ F) as (o & E1 & E2). eauto.
    + intros g F.
      assert (G : b_greet b s = Some g \/ exists l, nth t (b_rest b) [] = MCheck E s l :: ms /\ g = l).
      { destruct m; simpl in F; auto.
        - exfalso. inversion Hro as [ops Q|ops Q|v ops Q|x ops Q|x y ops Q|x ops Q]. destruct ops as [|[] ops]; discriminate.
        - unfold greet in F. cases; auto. destruct (seen_error (b_w b)); auto. destruct (b_greet b s0) eqn:Eg; auto. destruct (v_used (b_w b) s0); auto.
          simpl in F. unfold upd in F. destruct (Nat.eqb_spec s s0) as [->|]; auto. injection F as <-. eauto. }
      destruct G as [G|(l & G & ->)].
      * destruct (l_greet L G) as (o & E1 & E2). eauto.
      * destruct (l_check L _ G) as (o & E1 & E2). eauto.
    + intros [F|(u & [F|(ms' & F)])]; simpl in F.
      * apply Hkeep, (l_met L). left. destruct (small_w (reduce f) shown t m b) as [Q|(o & _ & Q)]; rewrite Q in F; auto.
      * apply Hkeep, (l_met L). right. destruct (small_w (reduce f) shown t m b) as [Q|(o & -> & Q)]; rewrite Q in F; [eauto|].
        rewrite feed_nth in F by auto. destruct (Nat.eq_dec u t) as [Hu|Hn]; [rewrite Hu, Nat.eqb_refl in F|apply Nat.eqb_neq in Hn; rewrite Hn in F; eauto]. destruct F as [F|[]]. injection F as ->. eauto.
      * destruct (Nat.eq_dec u t) as [->|Hn]; [|rewrite Ro in F by auto; apply Hkeep, (l_met L); right; eauto].
        rewrite Rt in F. inversion Hro as [ops Q|ops Q|v ops Q|x ops Q|x y ops Q|x ops Q]; subst; simpl in F; try discriminate.
        -- exfalso. destruct ops as [|[] ops]; simpl in Q; try discriminate; injection Q as <- <-; simpl in F; try discriminate;
             try (destruct ops as [|[] ops]; discriminate).
           ++ destruct (b_cell b); discriminate.
           ++ rewrite (l_closed L) in F. discriminate.
        -- exfalso. destruct ops as [|[] ops]; discriminate.
        -- injection F as -> _. simpl. destruct (seen_error (b_w b)) eqn:Es; [auto|]. unfold greet.
           destruct (b_greet b s) eqn:Eg; [left; rewrite Eg; discriminate|].
           destruct (v_used (b_w b) s) eqn:Eu.
           ++ destruct (l_met L) as [F|F]; [left; auto|congruence|congruence].
           ++ left. simpl. unfold upd. rewrite Nat.eqb_refl. discriminate.
        -- exfalso. destruct ops as [|[] ops]; discriminate.
Qed.
End Late.
Theorem async_late ts1 ts2 s : let b1 := reach ts1 in let b2 := brun ts2 b1 in
  is_closed (b_w b1) = true -> ~ has_begun b1 s -> v_used (b_w b2) s = true -> seen_error (b_w b2) = false ->
  exists D1 D2, b_log b2 = b_log b1 ++ D1 ++ D2 /\ b_greet b2 s = Some (as_list (reduced f (map snd (b_log b1 ++ D1)))).
Proof.
  intros b1 b2 Hc Hb Hu He.
  assert (G : forall ts b, abeh b -> late b1 s b -> late b1 s (brun ts b)).
  { clear. induction ts; simpl; auto. intros b H L. apply IHts; [apply abeh_step|apply late_step]; auto. }
  assert (L : late b1 s b2).
  { apply G; [apply abeh_reach|]. constructor; auto.
    - exists []. rewrite app_nil_r. auto.
    - intros t l ms F. destruct Hb. right. right. exists t. right. exists (MCheck E s l), ms. eauto.
    - intros g F. destruct Hb. right. left. rewrite F. discriminate.
    - intros F. destruct Hb. destruct F as [F|(t & [F|(ms & F)])]; [left; auto|right; right; eauto|].
      right. right. exists t. right. exists (MFeed (OSub s)), ms. auto. }
  destruct (l_met L (or_introl Hu)) as [F|F]; [|congruence].
  destruct (b_greet b2 s) as [g|] eqn:Eg; [|congruence]. destruct (l_greet L Eg) as (o & -> & D1 & D2 & E1 & ->). exists D1, D2. rewrite <- reduce_eq. auto.
Qed.
End Async.
