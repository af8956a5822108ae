(** The behavior and replay subjects used by several threads: invariants and what follows. *)
From Verif Require Import Base SubscrModel PubConcModel PubConcSpec PubConcProofs PubConcTold PubConcTable PubConcOrder PubConcArrive PubConcHear PubConcEnd PubConcMain PubConcBefore PubConcClosed StoreConcModel StoreConcSpec StoreConcProofs.
Set Implicit Arguments.

Arguments PubConcModel.step : simpl never.
Arguments PubConcModel.is_closed : simpl never.

Section Store.
Variables V E B : Type.
Notation call := (ncall (item V) E).
Notation st := (st V E).
Notation bst := (bst V E B).
Notation micro := (micro V E).
Variable store : B -> V -> B.
Variable replay : B -> list V.
Variable shuts : nat -> list call -> bool.
Notation step := (step shuts).
Notation bstep := (bstep store replay shuts).
Notation brun := (brun store replay shuts).
Notation small := (small store replay).

Lemma bstep_cases (Q : bst -> Prop) b t k :
  Q b ->
  (forall r, inside t (b_w b) = true ->
     r = b_rest b \/ (v_lock (step (b_w b) (t, k)) = Poisoned /\ r = set_nth t [] (b_rest b)) ->
     Q (with_w (step (b_w b) (t, k)) (with_rest r b))) ->
  (forall m ms, inside t (b_w b) = false -> nth t (b_rest b) [] = m :: ms ->
     Q (with_rest (set_nth t (fst (small t m b) ++ ms) (b_rest b)) (snd (small t m b)))) ->
  Q (bstep b (t, k)).
Proof.
  intros H0 H1 H2. unfold StoreConcModel.bstep. destruct (inside t (b_w b)) eqn:Ei.
  - apply H1; auto. destruct (v_lock (b_w b)); auto. destruct (v_lock (step (b_w b) (t, k))); auto.
  - destruct (nth t (b_rest b) []) as [|m ms] eqn:En; auto. specialize (H2 m ms eq_refl eq_refl).
    destruct (small t m b) as [ms' b']. exact H2.
Qed.

(** *** For all programs. *)
Record ok (b : bst) : Prop := {
  o_all : all_ok (b_w b);
  o_len : length (v_thr (b_w b)) = length (b_rest b);
  o_prop : all_proper shuts (b_w b)
}.
Lemma small_w t m (b : bst) : b_w (snd (small t m b)) = b_w b \/ exists o, m = MFeed o /\ b_w (snd (small t m b)) = feed t o (b_w b).
Proof.
  destruct m; simpl; eauto; unfold greet; try destruct (b_greet b s); try destruct (v_used _ s); auto; destruct (seen_error _); auto.
Qed.
Lemma ok_step b tk : ok b -> ok (bstep b tk).
Proof.
  intros [Ha Hl Hp]. destruct tk as [t k]. apply bstep_cases.
  - constructor; auto.
  - intros r _ Hr. constructor; simpl.
    + apply all_step; auto.
    + rewrite len_step. destruct Hr as [->|[_ ->]]; rewrite ?len_set; auto.
    + apply proper_step; auto.
  - intros m ms Hi En. apply outside in Hi as [Hi _].
    constructor; simpl; [| |]; destruct (small_w t m b) as [->|(o & _ & ->)]; rewrite ?len_set; auto.
    + apply feed_all; auto.
    + simpl. rewrite len_set. auto.
Qed.
Lemma nth_empty X (l : list (list X)) t : nth t (map (fun _ => []) l) [] = @nil (op V E).
Proof. change (@nil (op V E)) with ((fun _ : list X => @nil (op V E)) []) at 2. rewrite map_nth. auto. Qed.
Lemma start_thr (progs : list (list (op V E))) t : nth t (v_thr (start (map (fun _ => []) progs))) [] = @nil (cmd V E).
Proof.
  simpl. change (@nil (cmd V E)) with (map (@KOp V E) []). rewrite map_nth, nth_empty. auto.
Qed.
Lemma ok_start cell tr progs : ok (@bstart V E B cell tr progs).
Proof.
  constructor; simpl.
  - apply (all_start shuts).
  - rewrite !map_length. auto.
  - apply (proper_start shuts).
Qed.
Lemma ok_run ts b : ok b -> ok (brun ts b).
Proof. revert b. induction ts; simpl; auto. intros b H. apply IHts, ok_step, H. Qed.

(** *** The behavior and the replay subject. *)
Definition unfed (l : list micro) : list V := match l with MFeed (ONext v) :: _ => [v] | _ => [] end.
Definition to_store (l : list micro) : list V := flat_map (fun m => match m with MStore _ v => [v] | _ => [] end) l.
Inductive rest_ok : list micro -> Prop :=
| RO ops : rest_ok (flat_map (@behaving V E) ops)
| ROn v ops : rest_ok (MFeed (ONext v) :: flat_map (@behaving V E) ops)
| ROg s ops : rest_ok (MGreet _ _ s :: MFeed (OSub s) :: flat_map (@behaving V E) ops)
| ROs s ops : rest_ok (MFeed (OSub s) :: flat_map (@behaving V E) ops).
Lemma unfed_ops ops : unfed (flat_map (@behaving V E) ops) = [].
Proof. destruct ops as [|[] ops]; auto. Qed.
Lemma to_store_ops ops : to_store (flat_map (@behaving V E) ops) = pushes ops.
Proof. unfold to_store. induction ops as [|[] ops IH]; simpl; auto. f_equal. auto. Qed.

(** What a step on the cell can be. *)
Lemma rest_cases t m ms (b : bst) : rest_ok (m :: ms) ->
  rest_ok (fst (small t m b) ++ ms) /\
  ((exists v, m = MStore _ v /\ unfed (m :: ms) = [] /\ unfed (fst (small t m b) ++ ms) = [v] /\ to_store (m :: ms) = v :: to_store (fst (small t m b) ++ ms)) \/
   (exists o, m = MFeed o /\ unfed (m :: ms) = val_k (KOp o) /\ unfed (fst (small t m b) ++ ms) = [] /\ to_store (m :: ms) = to_store (fst (small t m b) ++ ms)) \/
   (exists s, (m = MIsErr _ _ s \/ m = MGreet _ _ s) /\ unfed (m :: ms) = [] /\ unfed (fst (small t m b) ++ ms) = [] /\ to_store (m :: ms) = to_store (fst (small t m b) ++ ms))).
Proof.
  intros H. inversion H as [ops Q|v ops Q|s ops Q|s ops Q].
  - destruct ops as [|[] ops]; simpl in Q; try discriminate; injection Q as <- <-; simpl.
    + split; [apply ROn|]. left. exists v. auto.
    + split; [apply RO|]. right. left. eexists. rewrite unfed_ops. auto.
    + split; [apply RO|]. right. left. eexists. rewrite unfed_ops. auto.
    + split; [apply RO|]. right. left. eexists. rewrite unfed_ops. auto.
    + split; [destruct (seen_error _); [apply ROs|apply ROg]|]. right. right. exists s. destruct (seen_error _); auto.
    + split; [apply RO|]. right. left. eexists. rewrite unfed_ops. auto.
  - subst. split; [apply RO|]. right. left. exists (ONext v). simpl. rewrite unfed_ops. auto.
  - subst. split; [apply ROs|]. right. right. exists s. simpl. auto.
  - subst. split; [apply RO|]. right. left. exists (OSub s). simpl. rewrite unfed_ops. auto.
Qed.

Lemma stored_app t (a b : list (item V)) : stored t (a ++ b) = stored t a ++ stored t b.
Proof. apply flat_map_app. Qed.
Lemma last1_snoc X (l : list X) x : last1 (l ++ [x]) = [x].
Proof.
  unfold last1. rewrite app_length. simpl. replace (length l + 1 - 1) with (length l) by lia.
  rewrite skipn_app, skipn_all, Nat.sub_diag. auto.
Qed.
Lemma unused_hline (w : st) s t : all_ok w -> v_used w s = false -> hline s t w = pending t w.
Proof.
  intros H Hu. pose proof (b_A (a_base H) s) as A. rewrite Hu in A. simpl in A.
  unfold hline, pending, tail_log, rest. destruct (v_from w s); [simpl in A; lia|].
  destruct (add_dec s (wait w)) as [F|F].
  { apply sum_in with (f := nA s) in F. simpl in F. rewrite Nat.eqb_refl in F. simpl in F. lia. }
  destruct (at_hand w); simpl; rewrite ?app_nil_r; auto.
Qed.

Variable init : B.
Variable progs : list (list (op V E)).
Definition cell_at (l : list (item V)) : B := fold_left store (map snd l) init.
Definition U (b : bst) (t : nat) : list V := unfed (nth t (b_rest b) []).
Record beh (b : bst) : Prop := {
  j_ok : ok b;
  j_rest : forall t, rest_ok (nth t (b_rest b) []);
  j_pend : forall t, sub (pending t (b_w b) ++ U b t) (last1 (stored t (b_log b)));
  j_line : forall t, sub (line t (b_w b) ++ U b t) (stored t (b_log b)) /\
                     (usable (b_w b) -> line t (b_w b) ++ U b t = stored t (b_log b));
  j_cell : b_cell b = cell_at (b_log b);
  j_greet : forall s g, b_greet b s = Some g -> exists G G', b_log b = G ++ G' /\ g = replay (cell_at G) /\
              forall t, sub (hline s t (b_w b) ++ U b t) (last1 (stored t G) ++ stored t G');
  j_prog : forall t, exists z, pushes (nth t progs []) = stored t (b_log b) ++ to_store (nth t (b_rest b) []) ++ z /\
              (v_lock (b_w b) <> Poisoned -> z = [])
}.

Lemma beh_step b tk : beh b -> beh (bstep b tk).
Proof.
  intros H. pose proof (o_all (j_ok H)) as Hall. destruct tk as [t k].
  assert (Hok : ok (bstep b (t, k))) by apply ok_step, H. revert Hok.
  apply (@bstep_cases (fun b' => ok b' -> beh b')); auto.
  - intros r _ Hr Hok.
    assert (HU : forall u, sub (unfed (nth u r [])) (U b u)).
    { intros u. destruct Hr as [->|[_ ->]]; [apply sub_refl|]. destruct (nth_set t u [] [] (b_rest b)) as [->| ->]; [apply sub_none|apply sub_refl]. }
    assert (HE : v_lock (step (b_w b) (t, k)) <> Poisoned -> r = b_rest b) by (intros F; destruct Hr as [->|[? _]]; tauto).
    constructor; auto; simpl.
    + intros u. destruct Hr as [->|[_ ->]]; [apply H|]. destruct (nth_set t u [] [] (b_rest b)) as [->| ->]; [apply (RO [])|apply H].
    + intros u. eapply sub_trans; [|apply (j_pend H u)]. apply sub_app; [apply pending_step; auto|apply HU].
    + intros u. destruct (line_step shuts (t, k) u (b_shape (a_base Hall)) (a_own Hall)) as [S1 S2]. split.
      * eapply sub_trans; [|apply (j_line H u)]. apply sub_app; auto. apply HU.
      * intros Hu. rewrite (S2 Hu). unfold U. simpl. rewrite (HE (proj2 Hu)). apply (j_line H u). apply (usable_back shuts _ _ Hu).
    + apply (j_cell H).
    + intros s g Hg. destruct (j_greet H s Hg) as (G & G' & E1 & E2 & E3). exists G, G'. repeat split; auto.
      intros u. eapply sub_trans; [|apply (E3 u)]. apply sub_app; [apply hline_step; auto|apply HU].
    + intros u. destruct (j_prog H u) as (z & E1 & E2). destruct Hr as [->|[F ->]].
      * exists z. split; auto. intros F. apply E2. intros F'. apply F. apply poison_step; auto.
      * destruct (nth_set t u [] [] (b_rest b)) as [->| ->]; [|exists z; tauto].
        exists (to_store (nth u (b_rest b) []) ++ z). split; auto. tauto.
  - intros m ms Hi En Hok. destruct (outside t (b_w b) Hi) as [Ht Hlk].
    assert (Hlen : t < length (v_thr (b_w b))) by (rewrite (o_len (j_ok H)); apply nth_cons_lt in En; auto).
    pose proof (j_rest H t) as Hro. rewrite En in Hro. destruct (rest_cases t b Hro) as [Hro' Hm].
    set (r := set_nth t (fst (small t m b) ++ ms) (b_rest b)) in *.
    assert (Rt : nth t r [] = fst (small t m b) ++ ms) by (apply nth_set_same; apply nth_cons_lt in En; auto).
    assert (Ro : forall u, u <> t -> nth u r [] = nth u (b_rest b) []) by (intros; apply nth_set_other; auto).
    assert (Hrest : forall u, rest_ok (nth u r [])).
    { intros u. destruct (Nat.eq_dec u t) as [->|Hn]; [rewrite Rt; auto|rewrite Ro by auto; apply H]. }
    destruct Hm as [(v & -> & U1 & U2 & T1)|[(o & -> & U1 & U2 & T1)|(s & Hs & U1 & U2 & T1)]].
    + assert (HU : forall u, unfed (nth u r []) = U b u ++ (if u =? t then [v] else [])).
      { intros u. destruct (Nat.eqb_spec u t) as [->|Hn]; [rewrite Rt; unfold U; rewrite En, U1, U2; auto|rewrite Ro, app_nil_r by auto; auto]. }
      assert (HS : forall u, stored u (b_log b ++ [(t, v)]) = stored u (b_log b) ++ (if u =? t then [v] else [])).
      { intros u. rewrite stored_app. simpl. rewrite app_nil_r, Nat.eqb_sym. auto. }
      constructor; auto; simpl.
      * intros u. unfold U at 1. simpl. fold r. rewrite HU, HS. destruct (Nat.eqb_spec u t) as [->|Hn].
        -- rewrite last1_snoc, (outside_pending _ (a_own Hall) Hi). unfold U. rewrite En, U1. apply sub_refl.
        -- rewrite !app_nil_r. apply (j_pend H).
      * intros u. unfold U. simpl. fold r. rewrite HU, HS, !app_assoc. split.
        -- apply sub_app; [apply (j_line H u)|apply sub_refl].
        -- intros Hu. f_equal. apply (j_line H u), Hu.
      * unfold cell_at. rewrite map_app, fold_left_app. simpl. rewrite (j_cell H). auto.
      * intros s g Hg. destruct (j_greet H s Hg) as (G & G' & E1 & E2 & E3). exists G, (G' ++ [(t, v)]).
        rewrite E1, app_assoc. repeat split; auto. intros u. unfold U. simpl. fold r. rewrite HU, stored_app, !app_assoc.
        apply sub_app; [apply E3|]. simpl. rewrite app_nil_r, Nat.eqb_sym. apply sub_refl.
      * intros u. destruct (j_prog H u) as (z & E1 & E2). exists z. split; auto. rewrite HS, E1. fold r.
        destruct (Nat.eqb_spec u t) as [->|Hn]; [rewrite Rt, En, T1, <- !app_assoc; auto|rewrite Ro, app_nil_r by auto; auto].
    + assert (HU : forall u, (if u =? t then val_k (KOp o) else []) ++ unfed (nth u r []) = U b u).
      { intros u. destruct (Nat.eqb_spec u t) as [->|Hn]; [rewrite Rt; unfold U; rewrite En, U1, U2, app_nil_r; auto|rewrite Ro by auto; auto]. }
      constructor; auto; simpl.
      * intros u. rewrite feed_pending by auto. unfold U. simpl. fold r. rewrite <- app_assoc, HU. apply (j_pend H).
      * intros u. rewrite feed_line by auto. unfold U. simpl. fold r. rewrite <- app_assoc, HU. apply (j_line H).
      * apply (j_cell H).
      * intros s g Hg. destruct (j_greet H s Hg) as (G & G' & E1 & E2 & E3). exists G, G'. repeat split; auto.
        intros u. rewrite feed_hline by auto. unfold U. simpl. fold r. rewrite <- app_assoc, HU. apply E3.
      * intros u. destruct (j_prog H u) as (z & E1 & E2). exists z. split; auto. rewrite E1. fold r.
        destruct (Nat.eq_dec u t) as [->|Hn]; [rewrite Rt, En, T1; auto|rewrite Ro by auto; auto].
    + assert (HU : forall u, unfed (nth u r []) = U b u).
      { intros u. destruct (Nat.eq_dec u t) as [->|Hn]; [rewrite Rt; unfold U; rewrite En, U1, U2; auto|rewrite Ro by auto; auto]. }
      assert (HT : forall u, to_store (nth u r []) = to_store (nth u (b_rest b) [])).
      { intros u. destruct (Nat.eq_dec u t) as [->|Hn]; [rewrite Rt, En, T1; auto|rewrite Ro by auto; auto]. }
      assert (Hg : snd (small t m b) = b \/ (v_used (b_w b) s = false /\ snd (small t m b) = with_greet (upd (b_greet b) s (Some (replay (b_cell b)))) b)).
      { destruct Hs as [->| ->]; simpl; auto. unfold greet. destruct (b_greet b s); auto. destruct (v_used (b_w b) s); auto. }
      assert (Hpart : forall g', (forall x y, g' x = Some y -> b_greet b x = Some y \/ (x = s /\ v_used (b_w b) s = false /\ y = replay (b_cell b))) ->
        ok (with_rest r (with_greet g' b)) -> beh (with_rest r (with_greet g' b))).
      { intros g' Hg' Hok'. constructor; auto; simpl.
        - intros u. unfold U. simpl. rewrite HU. apply (j_pend H).
        - intros u. unfold U. simpl. rewrite HU. apply (j_line H).
        - apply (j_cell H).
        - intros x y Q. destruct (Hg' x y Q) as [Q'|(-> & Hu & ->)].
          + destruct (j_greet H x Q') as (G & G' & E1 & E2 & E3). exists G, G'. repeat split; auto. intros u. unfold U. simpl. rewrite HU. apply E3.
          + exists (b_log b), []. rewrite app_nil_r. rewrite (j_cell H). repeat split; auto. intros u. unfold U. simpl. rewrite HU, app_nil_r, unused_hline by auto. apply (j_pend H).
        - intros u. destruct (j_prog H u) as (z & E1 & E2). exists z. split; auto. rewrite HT. auto. }
      destruct Hg as [Hg|[Hu Hg]]; rewrite Hg in Hok |- *.
      * replace (with_rest r b) with (with_rest r (with_greet (b_greet b) b)) in * by (destruct b; auto). apply Hpart; auto.
      * apply Hpart; auto. intros x y. unfold upd. destruct (Nat.eqb_spec x s) as [->|]; auto. intros Q; injection Q as <-. auto.
Qed.
Lemma nth_ops t : nth t (b_rest (@bstart V E B init (@behaving V E) progs)) [] = flat_map (@behaving V E) (nth t progs []).
Proof. simpl. change (@nil micro) with (flat_map (@behaving V E) []). rewrite map_nth. auto. Qed.
Lemma beh_start : beh (bstart init (@behaving V E) progs).
Proof.
  assert (HU : forall t, U (bstart init (@behaving V E) progs) t = []) by (intros t; unfold U; rewrite nth_ops; apply unfed_ops).
  constructor.
  - apply ok_start.
  - intros t. rewrite nth_ops. apply RO.
  - intros t. rewrite HU. unfold pending, at_hand. simpl b_w. rewrite start_thr. apply sub_none.
  - intros t. rewrite HU. unfold line. simpl b_w. rewrite start_thr. split; auto. apply sub_none.
  - reflexivity.
  - discriminate.
  - intros t. exists []. rewrite nth_ops, to_store_ops, app_nil_r. auto.
Qed.
Lemma beh_run ts b : beh b -> beh (brun ts b).
Proof. revert b. induction ts; simpl; auto. intros b H. apply IHts, beh_step, H. Qed.
Lemma beh_reach ts : beh (brun ts (bstart init (@behaving V E) progs)).
Proof. apply beh_run, beh_start. Qed.

(** *** What follows. *)
Notation reach ts := (brun ts (bstart init (@behaving V E) progs)).
Lemma told_hline (w : st) s t : all_ok w -> sub (vals t (d_told (v_dest w s))) (hline s t w).
Proof.
  intros H. unfold hline. destruct (told_log shuts s (a_base H)) as [->|[(c & Hc & -> & _)|(i & F & x & y & e & E1 & E2 & E3 & _)]].
  - apply sub_none.
  - simpl d_told. rewrite vals_end by auto. apply sub_none.
  - unfold tail_log. rewrite F, E1, E2, !vals_app, <- app_assoc. apply sub_app; [apply sub_refl|].
    destruct E3 as [->|[-> _]]; apply sub_none.
Qed.
Theorem store_order ts : let b := reach ts in exists L,
  (forall s, let d := v_dest (b_w b) s in
    (exists c, ends c = true /\ d_told d = [c] /\ d_closed d = true) \/
    exists x L1 L2 e, L = L1 ++ x ++ L2 /\ d_told d = x ++ e /\ (e = [] \/ (e = [Uns] /\ d_closed d = true)) /\
      (d_closed d = false -> v_lock (b_w b) = Free -> x = [] \/ L2 = [])) /\
  (forall t, sub (vals t L) (stored t (b_log b)) /\ exists z, pushes (nth t progs []) = stored t (b_log b) ++ z) /\
  b_cell b = fold_left store (map snd (b_log b)) init /\
  (at_rest b -> forall t, stored t (b_log b) = pushes (nth t progs []) /\
     (open b -> vals t L ++ valn t (v_q (b_w b)) = pushes (nth t progs []))).
Proof.
  intros b. pose proof (beh_reach ts) as H. fold b in H. pose proof (o_all (j_ok H)) as Ha. exists (v_log (b_w b)). split; [|split; [|split; [exact (j_cell H)|]]].
  - intros s d. destruct (told_log shuts s (a_base Ha)) as [Q|[(c & Q & F & _)|(i & _ & x & y & e & E1 & E2 & E3 & E4)]].
    + right. exists [], [], (v_log (b_w b)), []. repeat split; auto.
    + left. exists c. unfold d. rewrite F. auto.
    + right. exists x, (firstn i (v_log (b_w b))), y, e. rewrite <- E1, firstn_skipn. repeat split; auto.
      intros Hc Hf. right. rewrite (E4 Hc). apply free_owing; auto.
  - intros t. split.
    + eapply sub_trans; [|apply (j_line H t)]. unfold line. rewrite <- app_assoc. apply sub_app_nil, sub_refl.
    + destruct (j_prog H t) as (z & -> & _). eauto.
  - intros [[Hf Hi] Hr] t. destruct (j_prog H t) as (z & E1 & E2). rewrite E2, Hr, app_nil_r in E1 by congruence. change (to_store []) with (@nil V) in E1. rewrite ?app_nil_r in E1.
    split; auto. intros Hu. rewrite E1. rewrite <- (proj2 (j_line H t) Hu). unfold line, U. rewrite Hi, Hr, (idle_wait _ Hf). simpl. rewrite !app_nil_r. auto.
Qed.
Theorem store_grammar ts s : proper (shuts s) (v_dest (b_w (reach ts)) s).
Proof. apply (o_prop (j_ok (beh_reach ts))). Qed.
Theorem store_greets ts s g : let b := reach ts in b_greet b s = Some g ->
  exists G G', b_log b = G ++ G' /\ g = replay (fold_left store (map snd G) init) /\
    forall t, sub (vals t (told b s)) (last1 (stored t G) ++ stored t G').
Proof.
  intros b Hg. pose proof (beh_reach ts) as H. fold b in H. destruct (j_greet H s Hg) as (G & G' & E1 & E2 & E3).
  exists G, G'. repeat split; auto. intros t. eapply sub_trans; [|apply E3]. apply sub_app_nil. apply told_hline, H.
Qed.

(** Everybody is greeted, unless there is an error. *)
Definition met (b : bst) (s : nat) : Prop := b_greet b s <> None \/ seen_error (b_w b) = true.
Record meets (b : bst) : Prop := {
  m_used : forall s, v_used (b_w b) s = true -> met b s;
  m_op : forall t s, In (KOp (OSub s)) (nth t (v_thr (b_w b)) []) -> met b s;
  m_rest : forall t s ms, nth t (b_rest b) [] = MFeed (OSub s) :: ms -> met b s
}.
Lemma tell_err x c (w : st) : v_err (tell shuts x c w) = v_err w.
Proof. unfold tell. destruct (closed x w); auto. Qed.
Lemma off_err x (w : st) : v_err (off shuts x w) = v_err w.
Proof. unfold off. destruct (existsb _ _); auto. rewrite tell_err. auto. Qed.
Lemma err_step (w : st) tk : seen_error w = true -> seen_error (step w tk) = true.
Proof.
  intros H. assert (He : exists e, v_err w = Some e) by (unfold seen_error in H; destruct (v_err w); [eauto|discriminate]). destruct He as [e He].
  assert (G : forall w' : st, v_err w' = v_err w -> seen_error w' = true) by (intros w' Q; unfold seen_error; rewrite Q, He; auto).
  destruct tk as [t k]. apply step_cases; auto.
  - intros c cs _ _. destruct c as [[]| | | | | | |x|x| | |[| |x]|[| |x]| |]; try (unfold seen_error; reflexivity); apply G; simpl; unfold defer; rewrite ?He; cases; rewrite ?tell_err; auto.
  - intros i l' now _ _. apply G. simpl. destruct i as [d|[|[[]|x|x] ns]| |c [|x r]| |]; simpl; cases; rewrite ?tell_err, ?off_err; auto.
  - intros n _. apply G. simpl. destruct n as [[]|x|x]; simpl; rewrite ?off_err; auto.
Qed.
(** The stacks and who has begun. *)
Lemma used_step (w : st) u k s : v_used (step w (u, k)) s = true -> v_used w s = true \/ In (KOp (OSub s)) (nth u (v_thr w) []).
Proof.
  apply (@step_cases V E shuts (fun w' => v_used w' s = true -> v_used w s = true \/ In (KOp (OSub s)) (nth u (v_thr w) []))); auto.
  - intros c cs En _. rewrite En. simpl. destruct c as [[]| | | | | | |x|x| | |[| |x]|[| |x]| |]; simpl; unfold defer; cases; tellr; auto.
    unfold upd. destruct (Nat.eqb_spec s s0) as [->|]; auto.
  - intros i l' now _ _. simpl. destruct (inner_used shuts k i w) as (-> & _). auto.
  - intros n _. simpl. destruct n as [[]|x|x]; simpl; auto. destruct (off_r shuts x w) as (_ & _ & _ & -> & _). auto.
Qed.
Lemma op_step (w : st) u k t o : In (KOp o) (nth t (v_thr (step w (u, k))) []) -> In (KOp o) (nth t (v_thr w) []).
Proof.
  apply (@step_cases V E shuts (fun w' => In (KOp o) (nth t (v_thr w') []) -> In (KOp o) (nth t (v_thr w) []))); auto.
  - intros c cs En _. destruct (Nat.eq_dec u t) as [<-|Hn].
    + simpl. rewrite nth_set_same by (apply nth_cons_lt in En; auto). rewrite En. intros F. apply in_app_or in F as [F|F]; [|right; auto].
      exfalso. destruct c as [[]| | | | | | |x|x| | |[| |x]|[| |x]| |]; simpl in F; unfold defer in F;
        repeat match goal with H : In _ (match ?x with _ => _ end) |- _ => destruct x; simpl in H
               | H : In _ (fst (match ?x with _ => _ end)) |- _ => destruct x; simpl in H
               | H : _ \/ _ |- _ => destruct H | H : False |- _ => destruct H end; discriminate.
    + simpl. rewrite nth_set_other by auto. auto.
  - intros i l' now _ _. simpl. rewrite inner_thr. auto.
  - intros n _. simpl. rewrite now_thr. auto.
  - intros l' now El. simpl. destruct (nth_set u t [] [] (v_thr w)) as [->| ->]; [intros []|auto].
Qed.
Lemma meets_step b tk : beh b -> meets b -> meets (bstep b tk).
Proof.
  intros H M. destruct tk as [t k].
  apply bstep_cases; auto.
  - intros r _ Hr. assert (Hm : forall s, met b s -> met (with_w (step (b_w b) (t, k)) (with_rest r b)) s).
    { intros s [F|F]; [left; auto|right; apply err_step; auto]. }
    constructor; simpl.
    + intros s Hu. apply Hm. destruct (used_step _ _ _ _ Hu) as [F|F]; [apply (m_used M); auto|apply (m_op M _ _ F)].
    + intros u s Hi. apply Hm. apply (m_op M u). apply op_step in Hi. auto.
    + intros u s ms Hi. apply Hm. destruct Hr as [->|[_ ->]]; [apply (m_rest M _ Hi)|].
      destruct (nth_set t u [] [] (b_rest b)) as [F|F]; rewrite F in Hi; [discriminate|apply (m_rest M _ Hi)].
  - intros m ms Hi En. set (r := set_nth t (fst (small t m b) ++ ms) (b_rest b)).
    destruct (outside t (b_w b) Hi) as [Ht _].
    assert (Hlen : t < length (v_thr (b_w b))) by (rewrite (o_len (j_ok H)); apply nth_cons_lt in En; auto).
    assert (Rt : nth t r [] = fst (small t m b) ++ ms) by (apply nth_set_same; apply nth_cons_lt in En; auto).
    assert (Ro : forall u, u <> t -> nth u r [] = nth u (b_rest b) []) by (intros; apply nth_set_other; auto).
    pose proof (j_rest H t) as Hro. rewrite En in Hro.
    assert (Hm : forall s, met b s -> met (with_rest r (snd (small t m b))) s).
    { intros s [F|F]; unfold met; simpl.
      - left. destruct m; simpl; auto; unfold greet; cases; auto; simpl; unfold upd; destruct (s =? _); auto; discriminate.
      - right. destruct (small_w t m b) as [->|(o & _ & ->)]; auto. }
    constructor; simpl.
    + intros s Hu. apply Hm. apply (m_used M). destruct (small_w t m b) as [Q|(o & _ & Q)]; rewrite Q in Hu; auto.
    + intros u s. destruct (small_w t m b) as [->|(o & -> & ->)]; [intros F; apply Hm, (m_op M _ _ F)|].
      rewrite feed_nth by auto. destruct (Nat.eqb_spec u t) as [->|Hn]; [|intros F; apply Hm, (m_op M _ _ F)].
      intros [F|[]]. injection F as ->. apply Hm. apply (m_rest M _ En).
    + intros u s ms' F. fold r in F. destruct (Nat.eq_dec u t) as [->|Hn]; [|rewrite Ro in F by auto; apply Hm, (m_rest M _ F)].
      rewrite Rt in F. inversion Hro as [ops Q|v ops Q|x ops Q|x ops Q].
      * destruct ops as [|[] ops]; simpl in Q; try discriminate; injection Q as <- <-; simpl in F; try discriminate;
          try (destruct ops as [|[] ops]; discriminate).
        right. destruct (seen_error (b_w b)) eqn:Es; simpl in F; [auto|discriminate].
      * subst. simpl in F. destruct ops as [|[] ops]; discriminate.
      * subst. simpl in F. injection F as -> _. unfold met. simpl. unfold greet.
        destruct (b_greet b s) eqn:Eg; [left; rewrite Eg; discriminate|].
        destruct (v_used (b_w b) s) eqn:Eu.
        -- destruct (m_used M _ Eu) as [F|F]; auto.
        -- left. simpl. unfold upd. rewrite Nat.eqb_refl. discriminate.
      * subst. simpl in F. destruct ops as [|[] ops]; discriminate.
Qed.
Theorem store_met ts s : let b := reach ts in v_used (b_w b) s = true -> seen_error (b_w b) = false -> b_greet b s <> None.
Proof.
  intros b Hu He.
  assert (G : forall ts b, beh b -> meets b -> meets (brun ts b)).
  { clear. induction ts; simpl; auto. intros b H M. apply IHts; [apply beh_step|apply meets_step]; auto. }
  assert (M : meets b).
  { apply G; [apply beh_start|]. constructor.
    - discriminate.
    - intros t x. simpl b_w. rewrite start_thr. intros [].
    - intros t x ms. rewrite nth_ops. destruct (nth t progs []) as [|[] p]; discriminate. }
  destruct (m_used M _ Hu) as [F|F]; auto. congruence.
Qed.

(** *** Who has its subscription hears all. *)
Record follows (s : nat) (b1 b : bst) : Prop := {
  f_had : v_had (b_w b) s = true;
  f_log : exists D, b_log b = b_log b1 ++ D /\ (usable (b_w b) -> closed s (b_w b) = false ->
    forall t, sline s t (b_w b) ++ U b t = (sline s t (b_w b1) ++ U b1 t) ++ stored t D)
}.
Lemma follows_step s b1 b tk : beh b -> follows s b1 b -> follows s b1 (bstep b tk).
Proof.
  intros H [Fh (D & ED & FL)]. pose proof (o_all (j_ok H)) as Hall. destruct tk as [t k]. apply bstep_cases.
  - constructor; eauto.
  - intros r _ Hr. constructor; simpl; [apply had_step; auto|]. exists D. split; auto. intros Hu Hc u.
    rewrite sline_step by auto. unfold U at 1. simpl. destruct Hr as [->|[F _]]; [|destruct Hu; tauto].
    apply FL; [apply (usable_back shuts _ _ Hu)|]. destruct (closed s (b_w b)) eqn:Q; auto. unfold closed in *. rewrite closed_step in Hc by exact Q. congruence.
  - intros m ms Hi En. destruct (outside t (b_w b) Hi) as [Ht Hlk].
    assert (Hlen : t < length (v_thr (b_w b))) by (rewrite (o_len (j_ok H)); apply nth_cons_lt in En; auto).
    pose proof (j_rest H t) as Hro. rewrite En in Hro. destruct (rest_cases t b Hro) as [Hro' Hm].
    set (r := set_nth t (fst (small t m b) ++ ms) (b_rest b)) in *.
    assert (Rt : nth t r [] = fst (small t m b) ++ ms) by (apply nth_set_same; apply nth_cons_lt in En; auto).
    assert (Ro : forall u, u <> t -> nth u r [] = nth u (b_rest b) []) by (intros; apply nth_set_other; auto).
    destruct Hm as [(v & -> & U1 & U2 & T1)|[(o & -> & U1 & U2 & T1)|(x & Hs & U1 & U2 & T1)]].
    + constructor; simpl; auto. exists (D ++ [(t, v)]). rewrite ED, app_assoc. split; auto. intros Hu Hc u.
      rewrite stored_app. unfold U at 1. simpl. fold r. rewrite app_nil_r, app_assoc, <- (FL Hu Hc u), <- app_assoc. f_equal.
      unfold U. rewrite (Nat.eqb_sym t). destruct (Nat.eqb_spec u t) as [->|Hn]; [rewrite Rt, En, U1, U2; auto|rewrite Ro, app_nil_r by auto; auto].
    + constructor; simpl; auto. exists D. split; auto. intros Hu Hc u. rewrite feed_sline by auto. unfold U at 1. simpl. fold r.
      rewrite <- (FL Hu Hc u), <- app_assoc. f_equal. unfold U.
      destruct (Nat.eqb_spec u t) as [->|Hn]; [rewrite Rt, En, U1, U2, app_nil_r; auto|rewrite Ro by auto; auto].
    + assert (HU : forall u, unfed (nth u r []) = U b u).
      { intros u. unfold U. destruct (Nat.eq_dec u t) as [->|Hn]; [rewrite Rt, En, U1, U2; auto|rewrite Ro by auto; auto]. }
      assert (Hg : b_w (snd (small t m b)) = b_w b /\ b_log (snd (small t m b)) = b_log b).
      { destruct Hs as [->| ->]; simpl; auto. unfold greet. cases; auto. }
      destruct Hg as [Q1 Q2]. constructor; simpl; rewrite ?Q1, ?Q2; auto. exists D. split; auto. intros Hu Hc u.
      unfold U at 1. simpl. fold r. rewrite HU. apply FL; auto.
Qed.
Lemma rest_told (w : st) s t : all_ok w -> v_lock w = Free -> v_q w = [] -> closed s w = false ->
  vals t (tail_log s w) = vals t (d_told (v_dest w s)) /\ tail_wait s w = [].
Proof.
  intros H Hf Hq Hc. assert (Hw : wait w = []) by (rewrite idle_wait; auto). unfold closed in Hc.
  unfold tail_log, tail_wait. rewrite Hw. destruct (told_log shuts s (a_base H)) as [F|[(c & _ & F & _)|(i & F & x & y & e & E1 & E2 & E3 & E4)]].
  - destruct (v_from w s) as [i|] eqn:Ef; [|rewrite F; auto]. rewrite F. split; auto.
    destruct (to_heard (b_table (a_base H)) s Ef) as [_ G]. unfold closed in G. rewrite Hc in G. rewrite F, free_owing in G; auto. rewrite <- G. auto.
  - rewrite F in Hc. discriminate.
  - rewrite F. split; auto. rewrite E1, E2, E4, free_owing; auto. destruct E3 as [->|[_ E3]]; [rewrite !app_nil_r; auto|]. unfold closed in E3. congruence.
Qed.
Theorem store_hears ts1 ts2 s : let b1 := reach ts1 in let b2 := brun ts2 b1 in
  has b1 s -> at_rest b2 -> open b2 -> v_q (b_w b2) = [] -> shut b2 s = false ->
  exists D, b_log b2 = b_log b1 ++ D /\ forall t, exists x, vals t (told b2 s) = x ++ stored t D.
Proof.
  intros b1 b2 Hh [[Hf Hi] Hr] Hu Hq Hc. pose proof (beh_reach ts1) as H1. fold b1 in H1.
  assert (H2 : beh b2) by (apply beh_run; auto).
  assert (F : follows s b1 b2).
  { assert (G : forall ts b, beh b -> follows s b1 b -> follows s b1 (brun ts b)).
    { clear. induction ts; simpl; auto. intros b H M. apply IHts; [apply beh_step|apply follows_step]; auto. }
    apply G; auto. constructor; auto. exists []. rewrite app_nil_r. split; auto. intros _ _ t. simpl. rewrite app_nil_r. auto. }
  destruct F as [_ (D & ED & FD)]. exists D. split; auto. intros t. specialize (FD Hu Hc t).
  destruct (rest_told s t (o_all (j_ok H2)) Hf Hq Hc) as [Q1 Q2].
  unfold sline, U at 1 in FD. rewrite Q1, Q2, Hi, Hr in FD. simpl in FD. rewrite !app_nil_r in FD. eauto.
Qed.
End Store.

Section Latest.
Variables V E : Type.
Notation call := (ncall (item V) E).
Variable shuts : nat -> list call -> bool.

Lemma one_pusher t (l : list call) vs : l = map Nxt vs -> (forall u, u <> t -> vals u l = []) -> l = map (fun v => Nxt (t, v)) (vals t l).
Proof.
  intros ->. induction vs as [|[u v] vs IH]; auto. intros H. simpl. destruct (Nat.eqb_spec u t) as [->|Hn].
  - simpl. f_equal. apply IH. intros u Hu. specialize (H u Hu). simpl in H. apply app_eq_nil in H. tauto.
  - specialize (H u Hn). simpl in H. rewrite Nat.eqb_refl in H. discriminate.
Qed.
Lemma sub_none_inv X (l : list X) : sub l [] -> l = [].
Proof. inversion 1; auto. Qed.

Theorem behavior_latest v0 progs t ts1 ts2 s :
  let b1 := behavior_run shuts ts1 (behavior v0 progs) in let b2 := behavior_run shuts ts2 b1 in
  (forall u, u <> t -> pushes (nth u progs []) = []) ->
  has b1 s -> b_log b2 <> b_log b1 ->
  at_rest b2 -> open b2 -> v_q (b_w b2) = [] -> shut b2 s = false ->
  exists l, told b2 s = l ++ [Nxt (t, b_cell b2)].
Proof.
  intros b1 b2 Hp Hh HD Hr Ho Hq Hc.
  destruct (@store_hears V E V (fun _ v => v) (fun v => [v]) shuts v0 progs ts1 ts2 s Hh Hr Ho Hq Hc) as (D & ED & FD).
  change (brun _ _ shuts ts1 _) with b1 in ED, FD. change (brun _ _ shuts ts2 b1) with b2 in ED, FD.
  assert (R : b2 = behavior_run shuts (ts1 ++ ts2) (behavior v0 progs)) by (unfold b2, b1, behavior_run, brun; rewrite fold_left_app; auto).
  assert (Hb : beh (fun _ v => v) (fun v => [v]) shuts v0 progs b2) by (rewrite R; apply beh_reach).
  pose proof (o_prop (j_ok Hb) s) as (vs & e & E1 & E2).
  assert (e = []) as ->. { destruct E2 as [[]|[F _]]; auto. unfold shut in Hc. congruence. }
  rewrite app_nil_r in E1.
  assert (Hst : forall u, u <> t -> stored u (b_log b2) = []).
  { intros u Hu. destruct (j_prog Hb u) as (z & Q & _). rewrite (Hp u Hu) in Q. symmetry in Q. apply app_eq_nil in Q. tauto. }
  assert (Hu : forall u, u <> t -> vals u (told b2 s) = []).
  { intros u Hu. apply sub_none_inv. rewrite <- (Hst u Hu). eapply sub_trans; [|apply (j_line Hb u)].
    apply sub_app_nil. unfold line. eapply sub_trans; [apply (@told_sent V E shuts (b_w b2) s u), Hb|].
    unfold sent. apply sub_app; [apply sub_refl|]. apply sub_app; [apply sub_refl|].
    clear. induction (nth u (v_thr (b_w b2)) []) as [|c l IH]; [constructor|]. simpl.
    apply sub_app; auto. destruct c as [[]| | | | | | | | | | |[[[]| | |]| |]|[[[]| | |]| |]| |]; simpl; try apply sub_none; apply sub_refl. }
  destruct (FD t) as (x & Fx). rewrite (@one_pusher t (told b2 s) vs E1 Hu), Fx.
  destruct (@exists_last _ D) as (D' & [u v] & ->). { intros ->. apply HD. rewrite ED, app_nil_r. auto. }
  assert (u = t) as ->.
  { destruct (Nat.eq_dec u t); auto. specialize (Hst u n). rewrite ED, !stored_app in Hst. simpl in Hst. rewrite Nat.eqb_refl in Hst.
    apply app_eq_nil in Hst as [_ Hst]. apply app_eq_nil in Hst as [_ Hst]. discriminate. }
  assert (Hcell : b_cell b2 = v).
  { rewrite (j_cell Hb). unfold cell_at. rewrite ED, app_assoc, map_app, fold_left_app. auto. }
  rewrite Hcell, stored_app. simpl. rewrite Nat.eqb_refl. simpl. rewrite app_assoc, map_app. simpl. eauto.
Qed.
End Latest.

Section Cells.
Variables V E : Type.
Notation call := (ncall (item V) E).
Variable shuts : nat -> list call -> bool.
Lemma last_fold (l : list V) v0 : fold_left (fun _ v => v) l v0 = last l v0.
Proof. induction l as [|x l IH] using rev_ind; auto. rewrite fold_left_app, last_last. auto. Qed.
Lemma skip_skip X n m (l : list X) : skipn n (skipn m l) = skipn (m + n) l.
Proof. revert l. induction m; intros l; auto. destruct l; simpl; [apply skipn_nil|apply IHm]. Qed.
Lemma ring_fold cap (l : list V) : fold_left (ring cap) l [] = skipn (length l - cap) l.
Proof.
  induction l as [|x l IH] using rev_ind; auto. rewrite fold_left_app, IH. simpl. unfold ring.
  replace (skipn (length l - cap) l ++ [x]) with (skipn (length l - cap) (l ++ [x])).
  - rewrite skip_skip. f_equal. rewrite skipn_length, app_length. simpl. lia.
  - rewrite skipn_app. replace (length l - cap - length l) with 0 by lia. auto.
Qed.
Theorem behavior_greets v0 (progs : list (list (op V E))) ts s : let b := behavior_run shuts ts (behavior v0 progs) in
  (v_used (b_w b) s = true -> seen_error (b_w b) = false -> b_greet b s <> None) /\
  forall g, b_greet b s = Some g -> exists G G', b_log b = G ++ G' /\ g = [last (map snd G) v0] /\
    forall t, sub (vals t (told b s)) (last1 (stored t G) ++ stored t G').
Proof.
  intros b. split; [apply store_met|]. intros g Hg. destruct (@store_greets V E V (fun _ v => v) (fun v => [v]) shuts v0 progs ts s g Hg) as (G & G' & E1 & E2 & E3).
  exists G, G'. rewrite <- last_fold. auto.
Qed.
Theorem replay_greets cap (progs : list (list (op V E))) ts s : let b := replay_run shuts cap ts (replaying progs) in
  (v_used (b_w b) s = true -> seen_error (b_w b) = false -> b_greet b s <> None) /\
  forall g, b_greet b s = Some g -> exists G G', b_log b = G ++ G' /\ g = skipn (length G - cap) (map snd G) /\
    forall t, sub (vals t (told b s)) (last1 (stored t G) ++ stored t G').
Proof.
  intros b. split; [apply store_met|]. intros g Hg. destruct (@store_greets V E (list V) (ring cap) (fun l => l) shuts [] progs ts s g Hg) as (G & G' & E1 & E2 & E3).
  exists G, G'. rewrite ring_fold, map_length in E2. auto.
Qed.
End Cells.
