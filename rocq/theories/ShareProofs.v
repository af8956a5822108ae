(** Invariants of the connectable observable. *)
From Verif Require Import Base SubscrModel LifeModel CombModel ShareModel ShareSpec.
From Coq Require Import Permutation.
Set Implicit Arguments.

Lemma snoc_cases : forall (X : Type) (l p s : list X) (e x : X), l ++ [x] = p ++ e :: s ->
  (p = l /\ e = x /\ s = []) \/ exists s', s = s' ++ [x] /\ l = p ++ e :: s'.
Proof.
  intros X l p s e x h. destruct s as [|y s] using rev_ind.
  - change (p ++ [e]) with (p ++ [e]) in h. apply app_inj_tail in h. destruct h; subst. left; auto.
  - right. exists s. rewrite app_comm_cons, app_assoc in h. apply app_inj_tail in h. destruct h; subst. auto.
Qed.
Ltac fld := cbn [v_cur v_nc v_over v_ni v_on v_open v_told v_nk v_for v_run v_torn v_conn v_count v_errored v_completed v_tr
  with_cur with_nc with_over with_sub with_open with_told with_connection with_run with_torn with_conn with_count with_flags log] in *.
Section Lists.
Variables A E : Type.
Notation ev := (ev A E).
Implicit Types (p l : list ev) (e : ev).

Lemma always_snoc : forall (g : list ev -> ev -> Prop) l e, always g l -> g l e -> always g (l ++ [e]).
Proof.
  intros g l e h he p e' s Heq. destruct (snoc_cases _ _ _ _ _ Heq) as [[-> [-> ->]]|[s' [-> h']]]; [exact he|exact (h _ _ _ h')].
Qed.
Lemma answers_app : forall (ask : list ev -> ev -> list ev -> Prop) l t,
  (forall p e s u, ask p e s -> ask p e (s ++ u)) -> answers ask l ->
  (forall p e s, t = p ++ e :: s -> ask (l ++ p) e s) -> answers ask (l ++ t).
Proof.
  intros ask l t mono hl ht p e s Heq.
  revert p e s Heq. induction t as [|x t IH] using rev_ind; intros p e s Heq.
  - rewrite app_nil_r in Heq. exact (hl _ _ _ Heq).
  - rewrite app_assoc in Heq. destruct (snoc_cases _ _ _ _ _ Heq) as [[-> [-> ->]]|[s' [-> h']]].
    + apply ht. reflexivity.
    + destruct (Nat.le_gt_cases (length l) (length p)) as [hle|hlt].
      * assert (hp : exists p', p = l ++ p').
        { exists (skipn (length l) p). rewrite <- (firstn_skipn (length l) p) at 1. f_equal.
          assert (hf : firstn (length l) (l ++ t) = firstn (length l) (p ++ e :: s')) by (rewrite h'; reflexivity).
          rewrite firstn_app, firstn_all, Nat.sub_diag, firstn_O, app_nil_r in hf.
          rewrite firstn_app in hf. replace (length l - length p) with 0 in hf by lia. rewrite firstn_O, app_nil_r in hf. auto. }
        destruct hp as [p' ->]. rewrite <- app_assoc in h'. apply app_inv_head in h'. subst t.
        apply (ht p' e (s' ++ [x])). rewrite <- app_assoc. reflexivity.
      * apply mono. assert (hp : exists u, l = p ++ e :: u /\ s' = u ++ t).
        { exists (skipn (S (length p)) l).
          assert (hl' : l = firstn (length l) (p ++ e :: s')).
          { rewrite <- h'. rewrite firstn_app, firstn_all, Nat.sub_diag, firstn_O, app_nil_r. reflexivity. }
          rewrite firstn_app in hl'. rewrite (firstn_all2 p) in hl' by lia.
          destruct (length l - length p) eqn:hn; [lia|]. cbn [firstn] in hl'.
          assert (hk : skipn (S (length p)) l = firstn n s').
          { rewrite hl' at 1. rewrite skipn_app. rewrite skipn_all2 by lia. replace (S (length p) - length p) with 1 by lia. reflexivity. }
          rewrite hk. split; [exact hl'|].
          rewrite hl' in h'. rewrite <- app_assoc in h'. apply app_inv_head in h'. cbn in h'. injection h'. intros h2. symmetry; exact h2. }
        destruct hp as [u [hu ->]]. apply mono. exact (hl _ _ _ hu).
Qed.
End Lists.

Section Inv.
Variables A E : Type.
Notation call := (ncall A E).
Notation ev := (ev A E).
Notation st := (st A E).
Variable o : opts.
Implicit Types (s : st) (p l : list ev) (e : ev).

Definition plainK e : bool := match e with TJoin _ _ | TLeave _ | TOut _ _ | TUser | TReset => true | _ => false end.
Definition plainI e : bool := match e with TJoin _ _ | TLeave _ | TOut _ _ => false | _ => true end.

(** *** Connections *)
Record K (s : st) : Prop := {
  k_subs : subs (v_tr s) = v_nk s;
  k_for : forall k c, In (TSub k c) (v_tr s) -> v_for s k = c /\ k < v_nk s;
  k_sub : forall k, k < v_nk s -> In (TSub k (v_for s k)) (v_tr s);
  k_run : forall k, v_run s k = running k (v_tr s);
  k_new : forall k, v_nk s <= k -> stopped k (v_tr s) = false /\ ready k (v_tr s) = false;
  k_last : forall k, running k (v_tr s) = true -> S k = v_nk s;
  k_cur : forall k, running k (v_tr s) = true -> v_cur s = Some (v_for s k);
  k_torn : forall k, running k (v_tr s) = true -> v_torn s k = false;
  k_over : forall c, v_over s c <> None <-> over c (v_tr s);
  k_end : forall c x, v_over s c = Some x -> is_end x = true /\ exists k, In (TIn k x) (v_tr s);
  k_opt : forall c x, v_cur s = Some c -> v_over s c = Some x ->
            (exists y, x = Err y /\ o_error o = false) \/ x = Cmp /\ o_complete o = false;
  k_flags : v_errored s || v_completed s = finished (v_tr s)
}.
(** *** Subscribers *)
Record I (s : st) : Prop := {
  i_join : forall i, In i (joined (v_tr s)) -> i < v_ni s;
  i_new : forall i, v_ni s <= i -> left i (v_tr s) = false /\ told i (v_tr s) = [];
  i_nodup : NoDup (joined (v_tr s));
  i_open : forall i, v_open s i = true <-> In i (present (v_tr s));
  i_on : forall i c, In (TJoin i c) (v_tr s) -> v_on s i = c;
  i_told : forall i, v_told s i = told i (v_tr s);
  i_count : v_count s = length (present (v_tr s))
}.
(** *** Connectors *)
Record C (s : st) : Prop := {
  c_used : forall c, used c (v_tr s) -> c < v_nc s;
  c_cur : forall c, v_cur s = Some c -> c < v_nc s;
  c_same : forall q e r c, v_tr s = q ++ e :: r -> uses e = Some c -> forallb (keeps o) r = true -> v_cur s = Some c;
  c_fresh : forall q e r c, v_tr s = q ++ e :: r -> resets o q e -> used c q -> v_cur s <> Some c
}.
Arguments k_for {s} _ _ _ _. Arguments k_sub {s} _ _ _. Arguments k_new {s} _ _ _. Arguments k_last {s} _ _ _.
Arguments k_cur {s} _ _ _. Arguments k_torn {s} _ _ _. Arguments k_end {s} _ _ _ _. Arguments k_opt {s} _ _ _ _ _.
Arguments i_join {s} _ _ _. Arguments i_new {s} _ _ _. Arguments i_on {s} _ _ _ _.
Arguments c_used {s} _ _ _. Arguments c_cur {s} _ _ _. Arguments c_same {s} _ _ _ _ _ _ _ _. Arguments c_fresh {s} _ _ _ _ _ _ _ _ _.
(** *** Events *)
Definition good p e : Prop :=
  one p e /\ heard p e /\ tells o p e /\ joins p e /\ leaves p e /\ ends o p e /\ same o p e /\ fresh o p e.

(** ** Frames *)
Lemma existsb_snoc : forall (f : ev -> bool) p e, existsb f (p ++ [e]) = existsb f p || f e.
Proof. intros. rewrite existsb_app. cbn. now rewrite orb_false_r. Qed.
Lemma stopped_snoc : forall k p e, stopped k (p ++ [e]) = stopped k p || stopped k [e].
Proof. intros. unfold stopped. rewrite existsb_app. reflexivity. Qed.
Lemma subscribed_snoc : forall k p e, subscribed k (p ++ [e]) = subscribed k p || subscribed k [e].
Proof. intros. unfold subscribed. rewrite existsb_app. reflexivity. Qed.
Lemma ready_snoc : forall k p e, ready k (p ++ [e]) = ready k p || ready k [e].
Proof. intros. unfold ready. rewrite existsb_app. reflexivity. Qed.
Lemma finished_snoc : forall p e, finished (p ++ [e]) = finished p || finished [e].
Proof. intros. unfold finished. rewrite existsb_app. reflexivity. Qed.
Lemma left_snoc : forall i p e, left i (p ++ [e]) = left i p || left i [e].
Proof. intros. unfold left. rewrite existsb_app. reflexivity. Qed.
Lemma subs_snoc : forall p e, subs (p ++ [e]) = subs p + subs [e].
Proof. intros. unfold subs. rewrite filter_app, app_length. reflexivity. Qed.
Lemma joined_snoc : forall p e, joined (p ++ [e]) = joined p ++ joined [e].
Proof. intros. apply flat_map_app. Qed.
Lemma joined_to_snoc : forall c p e, joined_to c (p ++ [e]) = joined_to c p ++ joined_to c [e].
Proof. intros. apply flat_map_app. Qed.
Lemma told_snoc : forall i p e, told i (p ++ [e]) = told i p ++ told i [e].
Proof. intros. apply flat_map_app. Qed.
Lemma in_snoc : forall (X : Type) (x y : X) (l : list X), In x (l ++ [y]) <-> In x l \/ y = x.
Proof. intros. rewrite in_app_iff. cbn. tauto. Qed.

Lemma running_plain : forall k p e, plainK e = true -> running k (p ++ [e]) = running k p.
Proof.
  intros k p e h. unfold running. rewrite subscribed_snoc, stopped_snoc.
  destruct e; try discriminate; cbn; rewrite !orb_false_r; reflexivity.
Qed.
Lemma ready_plain : forall k p e, plainK e = true -> ready k (p ++ [e]) = ready k p.
Proof. intros k p e h. rewrite ready_snoc. destruct e; try discriminate; cbn; apply orb_false_r. Qed.
Lemma over_plain : forall c p e, plainK e = true -> (over c (p ++ [e]) <-> over c p).
Proof.
  intros c p e h. unfold over. split; intros (k & x & h1 & h2 & h3).
  - rewrite in_snoc in h1, h2. exists k, x. destruct h1 as [h1| ->]; [|discriminate]. destruct h2 as [h2| ->]; [|discriminate]. auto.
  - exists k, x. rewrite !in_snoc. auto.
Qed.
Lemma present_plain : forall p e, plainI e = true -> present (p ++ [e]) = present p.
Proof.
  intros p e h. unfold present. rewrite joined_snoc.
  replace (joined [e]) with (@nil nat) by (destruct e; try discriminate; reflexivity). rewrite app_nil_r.
  apply filter_ext. intros i. rewrite left_snoc. destruct e; try discriminate; cbn; rewrite orb_false_r; reflexivity.
Qed.
Lemma members_plain : forall c p e, plainI e = true -> members c (p ++ [e]) = members c p.
Proof.
  intros c p e h. unfold members. rewrite joined_to_snoc.
  replace (joined_to c [e]) with (@nil nat) by (destruct e; try discriminate; reflexivity). rewrite app_nil_r.
  apply filter_ext. intros i. rewrite left_snoc. destruct e; try discriminate; cbn; rewrite orb_false_r; reflexivity.
Qed.

(** What [K] looks at. *)
Definition eqK s s' : Prop :=
  v_cur s' = v_cur s /\ v_over s' = v_over s /\ v_nk s' = v_nk s /\ v_for s' = v_for s /\ v_run s' = v_run s /\
  v_torn s' = v_torn s /\ v_errored s' = v_errored s /\ v_completed s' = v_completed s.
Lemma K_plain : forall s s' e, K s -> eqK s s' -> v_tr s' = v_tr s ++ [e] -> plainK e = true -> K s'.
Proof.
  intros s s' e h (q1 & q2 & q3 & q4 & q5 & q6 & q7 & q8) ht he.
  constructor; intros; rewrite ?ht, ?q1, ?q2, ?q3, ?q4, ?q5, ?q6, ?q7, ?q8 in *; rewrite ?running_plain, ?ready_plain in * by exact he.
  - rewrite subs_snoc, (k_subs h). destruct e; try discriminate; cbn; lia.
  - rewrite in_snoc in H. destruct H as [H| ->]; [exact (k_for h _ _ H)|discriminate].
  - rewrite in_snoc. left. apply (k_sub h); assumption.
  - apply (k_run h).
  - rewrite stopped_snoc. destruct (k_new h _ H) as [-> ->]. destruct e; try discriminate; cbn; auto.
  - apply (k_last h); assumption.
  - apply (k_cur h); assumption.
  - apply (k_torn h); assumption.
  - rewrite over_plain by exact he. apply (k_over h).
  - destruct (k_end h _ _ H) as [h1 [k h2]]. split; [exact h1|]. exists k. rewrite in_snoc. auto.
  - apply (k_opt h _ _ H H0).
  - rewrite finished_snoc, (k_flags h). destruct e; try discriminate; cbn; now rewrite orb_false_r.
Qed.
Lemma K_eq : forall s s', K s -> eqK s s' -> v_tr s' = v_tr s -> K s'.
Proof.
  intros s s' h (q1 & q2 & q3 & q4 & q5 & q6 & q7 & q8) ht.
  destruct h. constructor; rewrite ?ht, ?q1, ?q2, ?q3, ?q4, ?q5, ?q6, ?q7, ?q8; assumption.
Qed.

Definition eqI s s' : Prop :=
  v_ni s' = v_ni s /\ v_on s' = v_on s /\ v_open s' = v_open s /\ v_told s' = v_told s /\ v_count s' = v_count s.
Lemma I_plain : forall s s' e, I s -> eqI s s' -> v_tr s' = v_tr s ++ [e] -> plainI e = true -> I s'.
Proof.
  intros s s' e h (q1 & q2 & q3 & q4 & q5) ht he.
  constructor; intros; rewrite ?ht, ?q1, ?q2, ?q3, ?q4, ?q5 in *; rewrite ?present_plain in * by exact he.
  - rewrite joined_snoc in H. apply in_app_or in H. destruct H as [H|H]; [apply (i_join h); assumption|destruct e; try discriminate; destruct H].
  - destruct (i_new h _ H) as [h1 h2]. rewrite left_snoc, told_snoc, h1, h2. destruct e; try discriminate; auto.
  - rewrite joined_snoc. replace (joined [e]) with (@nil nat) by (destruct e; try discriminate; reflexivity). rewrite app_nil_r. apply (i_nodup h).
  - apply (i_open h).
  - rewrite in_snoc in H. destruct H as [H| ->]; [exact (i_on h _ _ H)|discriminate].
  - rewrite told_snoc, (i_told h). destruct e; try discriminate; cbn; now rewrite app_nil_r.
  - apply (i_count h).
Qed.
Lemma I_eq : forall s s', I s -> eqI s s' -> v_tr s' = v_tr s -> I s'.
Proof.
  intros s s' h (q1 & q2 & q3 & q4 & q5) ht. destruct h. constructor; rewrite ?ht, ?q1, ?q2, ?q3, ?q4, ?q5; assumption.
Qed.

Lemma used_snoc : forall c p e, used c (p ++ [e]) <-> used c p \/ uses e = Some c.
Proof.
  intros c p e. unfold used. split.
  - intros [e' [h1 h2]]. rewrite in_snoc in h1. destruct h1 as [h1| ->]; [left; exists e'; auto|auto].
  - intros [[e' [h1 h2]]|h]; [exists e'|exists e]; rewrite in_snoc; auto.
Qed.
(** An event that does not replace the connector. *)
Lemma C_keep : forall s s' e, C s -> v_cur s' = v_cur s -> v_nc s' = v_nc s -> v_tr s' = v_tr s ++ [e] ->
  (forall c, uses e = Some c -> v_cur s = Some c) -> ~ resets o (v_tr s) e -> C s'.
Proof.
  intros s s' e h q1 q2 ht hu hr. constructor; intros; rewrite ?ht, ?q1, ?q2 in *.
  - rewrite used_snoc in H. destruct H as [H|H]; [apply (c_used h _ H)|apply (c_cur h), hu, H].
  - apply (c_cur h); assumption.
  - destruct (snoc_cases _ _ _ _ _ H) as [[-> [-> ->]]|[r' [-> H']]]; [auto|].
    rewrite forallb_app in H1. apply andb_true_iff in H1. destruct H1 as [H1 _]. apply (c_same h _ _ _ _ H' H0 H1).
  - destruct (snoc_cases _ _ _ _ _ H) as [[-> [-> ->]]|[r' [-> H']]]; [contradiction|]. apply (c_fresh h _ _ _ _ H' H0 H1).
Qed.
(** One that does. *)
Lemma C_drop : forall s s' e, C s -> v_cur s' = None -> v_nc s' = v_nc s -> v_tr s' = v_tr s ++ [e] -> keeps o e = false -> C s'.
Proof.
  intros s s' e h q1 q2 ht he.
  assert (hu : uses e = None) by (destruct e; try discriminate; reflexivity).
  constructor; intros; rewrite ?ht, ?q1, ?q2 in *.
  - rewrite used_snoc in H. destruct H as [H|H]; [apply (c_used h _ H)|congruence].
  - discriminate.
  - destruct (snoc_cases _ _ _ _ _ H) as [[-> [-> ->]]|[r' [-> H']]]; [congruence|].
    rewrite forallb_app in H1. apply andb_true_iff in H1. destruct H1 as [_ H1]. cbn in H1. rewrite he in H1. discriminate.
  - discriminate.
Qed.
Lemma C_eq : forall s s', C s -> v_cur s' = v_cur s -> v_nc s' = v_nc s -> v_tr s' = v_tr s -> C s'.
Proof. intros s s' h q1 q2 ht. destruct h. constructor; rewrite ?ht, ?q1, ?q2; assumption. Qed.

Record Inv (s : st) : Prop := { n_k : K s; n_i : I s; n_c : C s; n_good : always good (v_tr s) }.

Lemma over_used : forall c p, over c p -> used c p.
Proof. intros c p (k & x & h & _). exists (TSub k c). auto. Qed.
Lemma Inv_eq : forall s s', Inv s -> eqK s s' -> eqI s s' -> v_nc s' = v_nc s -> v_tr s' = v_tr s -> Inv s'.
Proof.
  intros s s' h hk hi hn ht. constructor.
  - apply (K_eq (n_k h) hk ht).
  - apply (I_eq (n_i h) hi ht).
  - apply (@C_eq s s' (n_c h)); [apply hk|exact hn|exact ht].
  - rewrite ht. apply (n_good h).
Qed.
Ltac eqs := unfold eqK, eqI; cbn; repeat split; reflexivity.
Lemma conn_Inv : forall s v, Inv s -> Inv (with_conn s v).
Proof. intros s v h. apply (@Inv_eq s); try exact h; eqs. Qed.

(** Plain events are right. *)
Lemma user_Inv : forall s, Inv s -> Inv (log s TUser).
Proof.
  intros s h. constructor.
  - apply (@K_plain s _ TUser (n_k h)); eqs.
  - apply (@I_plain s _ TUser (n_i h)); eqs.
  - apply (@C_keep s _ TUser (n_c h)); try reflexivity; [discriminate|intros [h1 _]; discriminate].
  - cbn. apply always_snoc; [exact (n_good h)|]. repeat split. all: discriminate.
Qed.
Lemma reset_Inv : forall s, Inv s -> (forall k, running k (v_tr s) = false) -> Inv (with_cur (log s TReset) None).
Proof.
  intros s h hr. constructor.
  - assert (hk : K (log s TReset)) by (apply (@K_plain s _ TReset (n_k h)); eqs).
    assert (hr' : forall k, running k (v_tr (log s TReset)) = false) by (intros k; cbn; rewrite running_plain; auto).
    destruct hk. constructor; cbn in *; try assumption.
    + intros k hk. rewrite hr' in hk. discriminate.
    + discriminate.
  - apply (@I_plain s _ TReset (n_i h)); eqs.
  - apply (@C_drop s _ TReset (n_c h)); reflexivity.
  - cbn. apply always_snoc; [exact (n_good h)|]. repeat split. all: discriminate.
Qed.

(** ** Leaving *)
Lemma left_false : forall i p, In i (present p) -> left i p = false.
Proof. intros i p h. apply filter_In in h. destruct h as [_ h]. now apply negb_true_iff in h. Qed.
Lemma present_joined : forall i p, In i (present p) -> In i (joined p).
Proof. intros i p h. now apply filter_In in h. Qed.
Lemma present_leave : forall i p j, In j (present (p ++ [TLeave i])) <-> In j (present p) /\ j <> i.
Proof.
  intros i p j. unfold present. rewrite !filter_In, joined_snoc, left_snoc. cbn. rewrite app_nil_r, orb_false_r, negb_true_iff, orb_false_iff, negb_true_iff, Nat.eqb_neq. intuition congruence.
Qed.
Lemma filter_length_remove : forall i (l : list nat) f g, NoDup l -> In i l -> f i = true -> g i = false ->
  (forall j, j <> i -> f j = g j) -> length (filter f l) = S (length (filter g l)).
Proof.
  intros i l f g hn hi hf hg hfg. induction l as [|x l IH]; [destruct hi|].
  inversion hn; subst. destruct hi as [->|hi].
  - cbn. rewrite hf, hg. cbn. f_equal. f_equal. apply filter_ext_in. intros j hj. apply hfg. congruence.
  - assert (x <> i) by congruence. cbn. rewrite (hfg x H). destruct (g x); cbn; rewrite IH; auto.
Qed.
Lemma present_length : forall i p, NoDup (joined p) -> In i (present p) -> length (present p) = S (length (present (p ++ [TLeave i]))).
Proof.
  intros i p hn hi. unfold present at 1 2. rewrite joined_snoc. cbn [joined flat_map]. rewrite app_nil_r.
  apply filter_length_remove with i; auto.
  - apply present_joined; assumption.
  - rewrite left_false; auto.
  - rewrite left_snoc. cbn. rewrite Nat.eqb_refl. now rewrite orb_true_r.
  - intros j hj. rewrite left_snoc. cbn. destruct (Nat.eqb_spec i j); [congruence|]. now rewrite !orb_false_r.
Qed.
Definition leave0 (i : nat) s : st := with_count (log (with_open s i false) (TLeave i)) (v_count s - 1).
Lemma put_eq : forall (X : Type) (f : nat -> X) i v, put f i v i = v.
Proof. intros. unfold put. now rewrite Nat.eqb_refl. Qed.
Lemma put_ne : forall (X : Type) (f : nat -> X) i j v, j <> i -> put f i v j = f j.
Proof. intros. unfold put. destruct (Nat.eqb_spec j i); congruence. Qed.

Lemma leave0_Inv : forall i s, Inv s -> v_open s i = true -> Inv (leave0 i s).
Proof.
  intros i s h hi. pose proof (n_i h) as ni. assert (hp : In i (present (v_tr s))) by (apply (i_open ni); exact hi).
  constructor.
  - apply (@K_plain s _ (TLeave i) (n_k h)); eqs.
  - constructor; unfold leave0; fld; intros.
    + rewrite joined_snoc in H. cbn in H. rewrite app_nil_r in H. apply (i_join ni); assumption.
    + destruct (i_new ni _ H) as [h1 h2]. rewrite left_snoc, told_snoc, h1, h2. cbn.
      assert (i < v_ni s) by (apply (i_join ni), present_joined; exact hp).
      destruct (Nat.eqb_spec i i0); [lia|]. auto.
    + rewrite joined_snoc. cbn. rewrite app_nil_r. apply (i_nodup ni).
    + rewrite present_leave. destruct (Nat.eqb_spec i0 i) as [->|hne].
      * rewrite put_eq. intuition congruence.
      * rewrite put_ne by exact hne. rewrite (i_open ni). tauto.
    + rewrite in_snoc in H. destruct H as [H|H]; [exact (i_on ni _ _ H)|discriminate].
    + rewrite told_snoc. cbn. rewrite app_nil_r. apply (i_told ni).
    + rewrite (i_count ni), (@present_length i _ (i_nodup ni) hp). lia.
  - apply (@C_keep s _ (TLeave i) (n_c h)); try reflexivity; [discriminate|intros [h1 _]; discriminate].
  - cbn. apply always_snoc; [exact (n_good h)|]. repeat split; try exact hp. all: discriminate.
Qed.

(** ** Ending a connection *)
Lemma deaf_over : forall k s, K s -> running k (v_tr s) = true -> (deaf k s = false <-> ~ over (v_for s k) (v_tr s)).
Proof.
  intros k s h hr. unfold deaf. rewrite (k_torn h _ hr). cbn. rewrite <- (k_over h). destruct (v_over s (v_for s k)); split; intros; try congruence. exfalso. apply H. discriminate.
Qed.
Lemma running_stop : forall j k p e, stopped j [e] = (k =? j) -> (forall c, e <> TSub j c) -> running j (p ++ [e]) = running j p && negb (k =? j).
Proof.
  intros j k p e h hs. unfold running. rewrite subscribed_snoc, stopped_snoc, h.
  replace (subscribed j [e]) with false.
  - rewrite orb_false_r, negb_orb, andb_assoc. reflexivity.
  - destruct e; try reflexivity. cbn. destruct (Nat.eqb_spec k0 j); [|reflexivity]. subst. exfalso. apply (hs c). reflexivity.
Qed.
Lemma run_lt : forall s k, K s -> running k (v_tr s) = true -> k < v_nk s.
Proof. intros s k h hr. rewrite <- (k_last h _ hr). lia. Qed.
(** An event after which connection [k] is over, but not its connector. *)
Lemma K_stop : forall s s' e k, K s -> running k (v_tr s) = true ->
  (forall j, stopped j [e] = (k =? j)) -> subs [e] = 0 -> (forall j c, e <> TSub j c) -> (forall j, ready j [e] = true -> j = k) ->
  (finished [e] = true -> over (v_for s k) (v_tr s)) -> (forall j x, e = TIn j x -> j = k) ->
  v_over s' = v_over s -> v_nk s' = v_nk s -> v_for s' = v_for s -> (forall j, v_run s' j = put (v_run s) k false j) ->
  v_errored s' = v_errored s -> v_completed s' = v_completed s -> (v_cur s' = v_cur s \/ v_cur s' = None) -> v_tr s' = v_tr s ++ [e] -> K s'.
Proof.
  intros s s' e k h hk he1 he2 he3 he4 he5 he6 q2 q3 q4 q5 q7 q8 q1 ht.
  assert (hr : forall j, running j (v_tr s') = running j (v_tr s) && negb (k =? j)).
  { intros j. rewrite ht. apply running_stop; auto. }
  assert (hr' : forall j, running j (v_tr s') = true -> False).
  { intros j hj. rewrite hr in hj. apply andb_true_iff in hj. destruct hj as [h1 h2].
    pose proof (k_last h _ h1). pose proof (k_last h _ hk). assert (k = j) by lia. subst. rewrite Nat.eqb_refl in h2. discriminate. }
  assert (hov : forall c, over c (v_tr s ++ [e]) <-> over c (v_tr s)).
  { intros c. split.
    - intros (j & x & h1 & h2 & h3). rewrite in_snoc in h1, h2. destruct h1 as [h1|h1]; [|exfalso; exact (he3 _ _ h1)].
      destruct h2 as [h2|h2]; [exists j, x; auto|]. assert (j = k) by exact (he6 _ _ h2). subst j.
      assert (hc : v_for s k = c) by apply (k_for h _ _ h1). subst c. apply he5. subst e. cbn. rewrite h3. reflexivity.
    - intros (j & x & h1 & h2 & h3). exists j, x. rewrite !in_snoc. auto. }
  constructor; intros; rewrite ?q2, ?q3, ?q4, ?q7, ?q8 in *; try (exfalso; exact (hr' _ H)).
  - rewrite ht, subs_snoc, he2, (k_subs h). lia.
  - rewrite ht, in_snoc in H. destruct H as [H|H]; [exact (k_for h _ _ H)|exfalso; exact (he3 _ _ H)].
  - rewrite ht, in_snoc. left. apply (k_sub h); assumption.
  - rewrite q5, hr. destruct (Nat.eqb_spec k k0) as [<-|hne]; [rewrite put_eq; now rewrite andb_false_r|].
    rewrite put_ne by congruence. rewrite andb_true_r. apply (k_run h).
  - rewrite ht, stopped_snoc, ready_snoc, he1. destruct (k_new h _ H) as [-> ->].
    pose proof (@run_lt s k h hk). destruct (Nat.eqb_spec k k0); [lia|]. split; [reflexivity|]. cbn [orb].
    destruct (ready k0 [e]) eqn:hre; [|reflexivity]. apply he4 in hre. congruence.
  - rewrite ht, hov. apply (k_over h).
  - destruct (k_end h _ _ H) as [h1 [j h2]]. split; [exact h1|]. exists j. rewrite ht, in_snoc. auto.
  - destruct q1 as [q1|q1]; rewrite q1 in H; [apply (k_opt h _ _ H H0)|discriminate].
  - rewrite ht, finished_snoc, (k_flags h). destruct (finished [e]) eqn:hf; [|now rewrite orb_false_r].
    rewrite orb_true_r. destruct (he5 eq_refl) as (j & x & h1 & h2 & h3).
    unfold finished. apply existsb_exists. exists (TIn j x). auto.
Qed.

Lemma good_in : forall p k x, running k p = true -> good p (TIn k x).
Proof. intros p k x h. repeat split; try exact h. all: discriminate. Qed.
Lemma good_end : forall p k, ends o p (TEnd k) -> good p (TEnd k).
Proof. intros p k h. repeat split; try apply h. all: discriminate. Qed.

(** The subscriber of the connection is unsubscribed, for either reason. *)
Lemma unsub_Inv : forall s k e, Inv s -> running k (v_tr s) = true -> e = TEnd k \/ e = TIn k Uns -> good (v_tr s) e ->
  Inv (connection_unsubscribe o k (log (with_run s k false) e)).
Proof.
  intros s k e h hk he hg. pose proof (n_k h) as nk.
  assert (e1 : forall j, stopped j [e] = (k =? j)) by (intros j; destruct he as [->| ->]; cbn; apply orb_false_r).
  assert (e2 : subs [e] = 0) by (destruct he as [->| ->]; reflexivity).
  assert (e3 : forall j c, e <> TSub j c) by (intros; destruct he as [->| ->]; discriminate).
  assert (e4 : forall j, ready j [e] = true -> j = k) by (intros j; destruct he as [->| ->]; discriminate).
  assert (e5 : finished [e] = true -> over (v_for s k) (v_tr s)) by (destruct he as [->| ->]; discriminate).
  assert (e6 : forall j x, e = TIn j x -> j = k) by (intros j x; destruct he as [->| ->]; congruence).
  assert (e7 : keeps o e = negb (o_disconnect o)) by (destruct he as [->| ->]; reflexivity).
  assert (e8 : uses e = None) by (destruct he as [->| ->]; reflexivity).
  assert (e9 : plainI e = true) by (destruct he as [->| ->]; reflexivity).
  unfold connection_unsubscribe.
  change (deaf k (log (with_run s k false) e)) with (deaf k s).
  destruct (deaf k s) eqn:hd.
  - constructor.
    + apply (@K_stop s _ e k nk hk e1 e2 e3 e4 e5 e6); try reflexivity. left; reflexivity.
    + apply (@I_plain s _ e (n_i h)); try eqs. exact e9.
    + apply (@C_keep s _ e (n_c h)); try reflexivity; [rewrite e8; discriminate|].
      intros [_ hr]. assert (ho : over (v_for s k) (v_tr s)).
      { destruct (v_over s (v_for s k)) eqn:hv; [apply (k_over nk); congruence|].
        unfold deaf in hd. rewrite hv, (k_torn nk _ hk) in hd. discriminate. }
      assert (hs : In (TSub k (v_for s k)) (v_tr s)) by (apply (k_sub nk), (@run_lt s k nk hk)).
      destruct he as [->| ->]; exact (hr _ hs ho).
    + fld. apply always_snoc; [exact (n_good h)|exact hg].
  - destruct (o_disconnect o) eqn:hdis; cbn in e7; constructor.
    + apply (@K_stop s _ e k nk hk e1 e2 e3 e4 e5 e6); try reflexivity. right; reflexivity.
    + apply (@I_plain s _ e (n_i h)); try eqs. exact e9.
    + apply (@C_drop s _ e (n_c h)); try reflexivity. exact e7.
    + fld. apply always_snoc; [exact (n_good h)|exact hg].
    + apply (@K_stop s _ e k nk hk e1 e2 e3 e4 e5 e6); try reflexivity. left; reflexivity.
    + apply (@I_plain s _ e (n_i h)); try eqs. exact e9.
    + apply (@C_keep s _ e (n_c h)); try reflexivity; [rewrite e8; discriminate|]. intros [hr _]. congruence.
    + fld. apply always_snoc; [exact (n_good h)|exact hg].
Qed.

(** The source says something that does not end it. *)
Lemma next_Inv : forall s k a, Inv s -> running k (v_tr s) = true -> Inv (log s (TIn k (Nxt a))).
Proof.
  intros s k a h hk. pose proof (n_k h) as nk.
  assert (hr : forall j, running j (v_tr s ++ [TIn k (Nxt a)]) = running j (v_tr s)).
  { intros j. unfold running. rewrite subscribed_snoc, stopped_snoc. cbn. now rewrite !orb_false_r. }
  constructor.
  - constructor; fld; intros; rewrite ?hr in *.
    + rewrite subs_snoc, (k_subs nk). cbn; lia.
    + rewrite in_snoc in H. destruct H as [H|H]; [exact (k_for nk _ _ H)|discriminate].
    + rewrite in_snoc. left. apply (k_sub nk); assumption.
    + apply (k_run nk).
    + rewrite stopped_snoc, ready_snoc. destruct (k_new nk _ H) as [-> ->]. auto.
    + apply (k_last nk); assumption.
    + apply (k_cur nk); assumption.
    + apply (k_torn nk); assumption.
    + rewrite (k_over nk). split; intros (j & x & h1 & h2 & h3).
      * exists j, x. rewrite !in_snoc. auto.
      * rewrite in_snoc in h1, h2. exists j, x. destruct h1 as [h1|h1]; [|discriminate]. destruct h2 as [h2|h2]; [auto|].
        injection h2; intros; subst. discriminate.
    + destruct (k_end nk _ _ H) as [h1 [j h2]]. split; [exact h1|]. exists j. rewrite in_snoc. auto.
    + apply (k_opt nk _ _ H H0).
    + rewrite finished_snoc, (k_flags nk). cbn. now rewrite orb_false_r.
  - apply (@I_plain s _ (TIn k (Nxt a)) (n_i h)); eqs.
  - apply (@C_keep s _ (TIn k (Nxt a)) (n_c h)); try reflexivity; [discriminate|]. intros [hr' _]; discriminate.
  - fld. apply always_snoc; [exact (n_good h)|]. apply good_in; exact hk.
Qed.

(** It ends, and nobody listens. *)
Lemma deaf_Inv : forall s k x, Inv s -> running k (v_tr s) = true -> is_end x = true -> deaf k s = true ->
  Inv (with_run (log s (TIn k x)) k false).
Proof.
  intros s k x h hk hx hd. pose proof (n_k h) as nk.
  assert (ho : over (v_for s k) (v_tr s)).
  { destruct (v_over s (v_for s k)) eqn:hv; [apply (k_over nk); congruence|].
    unfold deaf in hd. rewrite hv, (k_torn nk _ hk) in hd. discriminate. }
  constructor.
  - apply (@K_stop s _ (TIn k x) k nk hk); try reflexivity; try (intros; discriminate).
    + intros j. cbn. destruct x; try discriminate; cbn; apply orb_false_r.
    + intros _. exact ho.
    + congruence.
    + left; reflexivity.
  - apply (@I_plain s _ (TIn k x) (n_i h)); eqs.
  - apply (@C_keep s _ (TIn k x) (n_c h)); try reflexivity; [discriminate|].
    intros [_ hr]. apply (hr (v_for s k)); [|exact ho]. apply (k_sub nk), (@run_lt s k nk hk).
  - fld. apply always_snoc; [exact (n_good h)|]. apply good_in; exact hk.
Qed.

(** It ends, and so does its connector. *)
Lemma finish_Inv : forall s s' k x, Inv s -> running k (v_tr s) = true -> is_end x = true -> deaf k s = false ->
  (v_cur s' = if keeps o (TIn k x) then v_cur s else None) -> v_nc s' = v_nc s -> v_over s' = put (v_over s) (v_for s k) (Some x) ->
  eqI s s' -> v_nk s' = v_nk s -> v_for s' = v_for s -> v_run s' = put (v_run s) k false -> v_torn s' = v_torn s ->
  v_errored s' || v_completed s' = true -> v_tr s' = v_tr s ++ [TIn k x] -> Inv s'.
Proof.
  intros s s' k x h hk hx hd q1 q2 q3 qi q4 q5 q6 q7 q8 ht. pose proof (n_k h) as nk.
  assert (hr : forall j, running j (v_tr s') = running j (v_tr s) && negb (k =? j)).
  { intros j. rewrite ht. apply running_stop; [|intros; discriminate]. cbn. destruct x; try discriminate; cbn; apply orb_false_r. }
  assert (hr' : forall j, running j (v_tr s') = true -> False).
  { intros j hj. rewrite hr in hj. apply andb_true_iff in hj. destruct hj as [h1 h2].
    pose proof (k_last nk _ h1). pose proof (k_last nk _ hk). assert (k = j) by lia. subst. rewrite Nat.eqb_refl in h2. discriminate. }
  assert (hsub : In (TSub k (v_for s k)) (v_tr s)) by (apply (k_sub nk), (@run_lt s k nk hk)).
  constructor.
  - constructor; intros; rewrite ?q4, ?q5 in *; try (exfalso; exact (hr' _ H)).
    + rewrite ht, subs_snoc, (k_subs nk). cbn; lia.
    + rewrite ht, in_snoc in H. destruct H as [H|H]; [exact (k_for nk _ _ H)|discriminate].
    + rewrite ht, in_snoc. left. apply (k_sub nk); assumption.
    + rewrite q6, hr. destruct (Nat.eqb_spec k k0) as [<-|hne]; [rewrite put_eq; now rewrite andb_false_r|].
      rewrite put_ne by congruence. rewrite andb_true_r. apply (k_run nk).
    + rewrite ht, stopped_snoc, ready_snoc. destruct (k_new nk _ H) as [-> ->]. cbn.
      pose proof (@run_lt s k nk hk). destruct (Nat.eqb_spec k k0); [lia|]. now rewrite andb_false_r.
    + rewrite q3, ht. unfold put. destruct (Nat.eqb_spec c (v_for s k)) as [->|hne].
      * split; [|discriminate]. intros _. exists k, x. rewrite !in_snoc. auto.
      * rewrite (k_over nk). split; intros (j & y & h1 & h2 & h3).
        -- exists j, y. rewrite !in_snoc. auto.
        -- rewrite in_snoc in h1, h2. destruct h1 as [h1|h1]; [|discriminate]. destruct h2 as [h2|h2]; [exists j, y; auto|].
           injection h2; intros; subst. exfalso. apply hne. symmetry. apply (k_for nk _ _ h1).
    + rewrite q3 in H. unfold put in H. rewrite ht. destruct (Nat.eqb_spec c (v_for s k)) as [->|hne].
      * injection H as <-. split; [exact hx|]. exists k. rewrite in_snoc. auto.
      * destruct (k_end nk _ _ H) as [h1 [j h2]]. split; [exact h1|]. exists j. rewrite in_snoc. auto.
    + rewrite q1 in H. destruct (keeps o (TIn k x)) eqn:hkp; [|discriminate].
      rewrite (k_cur nk _ hk) in H. injection H as <-. rewrite q3, put_eq in H0. injection H0 as <-.
      destruct x; try discriminate; cbn in hkp; apply negb_true_iff in hkp; [left; eauto|right; auto].
    + rewrite q8, ht, finished_snoc. cbn. rewrite hx. now rewrite orb_true_r.
  - apply (@I_plain s _ (TIn k x) (n_i h)); [exact qi|exact ht|reflexivity].
  - destruct (keeps o (TIn k x)) eqn:hkp.
    + apply (@C_keep s _ (TIn k x) (n_c h)); auto; [discriminate|]. intros [hrr _]. congruence.
    + apply (@C_drop s _ (TIn k x) (n_c h)); auto.
  - rewrite ht. apply always_snoc; [exact (n_good h)|]. apply good_in; exact hk.
Qed.
Lemma torn_Inv : forall s k b, Inv s -> running k (v_tr s) = false -> Inv (with_torn s k b).
Proof.
  intros s k b h hr. constructor; [|apply (@I_eq s); [apply (n_i h)|eqs|reflexivity]|apply (@C_eq s); try reflexivity; apply (n_c h)|exact (n_good h)].
  destruct (n_k h). constructor; fld; try assumption.
  intros j hj. rewrite put_ne by congruence. auto.
Qed.

(** ** Connecting *)
Lemma get_Inv : forall s, Inv s -> Inv (snd (get_connector s)) /\ v_cur (snd (get_connector s)) = Some (fst (get_connector s)) /\
  v_tr (snd (get_connector s)) = v_tr s /\ v_nk (snd (get_connector s)) = v_nk s /\ v_ni (snd (get_connector s)) = v_ni s /\
  v_conn (snd (get_connector s)) = v_conn s.
Proof.
  intros s h. unfold get_connector. destruct (v_cur s) as [c|] eqn:hc; cbn [fst snd].
  - split; [exact h|]. auto 6.
  - split; [|fld; auto]. pose proof (n_k h) as nk. pose proof (n_c h) as nc. constructor.
    + pose proof nk as nk'. destruct nk'. constructor; fld; try assumption.
      * intros k hk. rewrite (k_cur nk _ hk) in hc. discriminate.
      * intros c x hcx hx. injection hcx as <-. exfalso.
        assert (used (v_nc s) (v_tr s)) by (apply over_used, (k_over nk); congruence). pose proof (c_used nc _ H). lia.
    + apply (@I_eq s); [exact (n_i h)|eqs|reflexivity].
    + constructor; fld; intros.
      * pose proof (c_used nc _ H). lia.
      * injection H as <-. lia.
      * pose proof (c_same nc _ _ _ _ H H0 H1). congruence.
      * intros heq. injection heq as <-. assert (used (v_nc s) (v_tr s)).
        { rewrite H. destruct H1 as [e' [h1 h2]]. exists e'. rewrite in_app_iff. auto. }
        pose proof (c_used nc _ H2). lia.
    + exact (n_good h).
Qed.
Lemma sub_Inv : forall s c, Inv s -> v_cur s = Some c -> (forall k, running k (v_tr s) = false) ->
  Inv (log (with_connection s (v_nk s) c) (TSub (v_nk s) c)) /\ running (v_nk s) (v_tr s ++ [TSub (v_nk s) c]) = true.
Proof.
  intros s c h hc hr. pose proof (n_k h) as nk. set (k := v_nk s).
  assert (hk : running k (v_tr s ++ [TSub k c]) = true).
  { unfold running. rewrite subscribed_snoc, stopped_snoc. destruct (k_new nk k (le_n _)) as [-> _]. cbn. rewrite Nat.eqb_refl. now rewrite orb_true_r. }
  assert (hj : forall j, j <> k -> running j (v_tr s ++ [TSub k c]) = false).
  { intros j hj. rewrite <- (hr j). unfold running. rewrite subscribed_snoc, stopped_snoc. cbn. destruct (Nat.eqb_spec k j); [congruence|]. now rewrite !orb_false_r. }
  split; [|exact hk]. constructor.
  - constructor; fld; intros.
    + rewrite subs_snoc, (k_subs nk). cbn. lia.
    + rewrite in_snoc in H. destruct H as [H|H].
      * destruct (k_for nk _ _ H) as [h1 h2]. rewrite put_ne; [split; [exact h1|unfold k in *; lia]|unfold k; lia].
      * injection H as <- <-. rewrite put_eq. split; [reflexivity|lia].
    + rewrite in_snoc. destruct (Nat.eq_dec k0 k) as [->|hne]; [rewrite put_eq; auto|].
      rewrite put_ne by exact hne. left. apply (k_sub nk). unfold k in *; lia.
    + destruct (Nat.eq_dec k0 k) as [->|hne]; [rewrite put_eq, hk; reflexivity|].
      rewrite put_ne, hj by exact hne. rewrite (k_run nk). apply hr.
    + rewrite stopped_snoc, ready_snoc. destruct (k_new nk k0) as [-> ->]; [unfold k in *; lia|auto].
    + destruct (Nat.eq_dec k0 k) as [->|hne]; [lia|]. rewrite hj in H by exact hne. discriminate.
    + destruct (Nat.eq_dec k0 k) as [->|hne]; [rewrite put_eq; exact hc|]. rewrite hj in H by exact hne. discriminate.
    + destruct (Nat.eq_dec k0 k) as [->|hne]; [rewrite put_eq; reflexivity|]. rewrite hj in H by exact hne. discriminate.
    + rewrite (k_over nk). split; intros (j & x & h1 & h2 & h3).
      * exists j, x. rewrite !in_snoc. auto.
      * rewrite in_snoc in h1, h2. destruct h2 as [h2|h2]; [|discriminate]. destruct h1 as [h1|h1]; [exists j, x; auto|].
        injection h1 as <- <-. exfalso. destruct (k_new nk k (le_n _)) as [hs _].
        assert (stopped k (v_tr s) = true); [|congruence].
        unfold stopped. apply existsb_exists. exists (TIn k x). split; [exact h2|].
        rewrite Nat.eqb_refl. destruct x; try discriminate; reflexivity.
    + destruct (k_end nk _ _ H) as [h1 [j h2]]. split; [exact h1|]. exists j. rewrite in_snoc. auto.
    + apply (k_opt nk _ _ H H0).
    + rewrite finished_snoc, (k_flags nk). cbn. now rewrite orb_false_r.
  - apply (@I_plain s _ (TSub k c) (n_i h)); eqs.
  - apply (@C_keep s _ (TSub k c) (n_c h)); try reflexivity; [intros c' hc'; cbn in hc'; congruence|]. intros [hr' _]; discriminate.
  - fld. apply always_snoc; [exact (n_good h)|].
    split; [split; [symmetry; apply (k_subs nk)|exact hr]|]. repeat split.
    + intros c' hc' q e' r d he hu hkp. cbn in hc'. pose proof (c_same (n_c h) _ _ _ _ he hu hkp). congruence.
    + intros c' hc' q e' r he hrs hu. cbn in hc'. apply (c_fresh (n_c h) _ _ _ _ he hrs hu). congruence.
Qed.
Lemma running_ready : forall j k b p, running j (p ++ [TReady k b]) = running j p && (b || negb (k =? j)).
Proof.
  intros. unfold running. rewrite subscribed_snoc, stopped_snoc. cbn. rewrite !orb_false_r, negb_orb, negb_andb, negb_involutive, andb_assoc. reflexivity.
Qed.
Lemma ready_Inv : forall s k b, Inv s -> k < v_nk s -> (b = true -> running k (v_tr s) = true) ->
  Inv (log (with_run s k b) (TReady k b)).
Proof.
  intros s k b h hk hb. pose proof (n_k h) as nk.
  assert (hsub : forall j, running j (v_tr s ++ [TReady k b]) = true -> running j (v_tr s) = true).
  { intros j hj. rewrite running_ready in hj. now apply andb_true_iff in hj. }
  constructor.
  - constructor; fld; intros; try (apply hsub in H).
    + rewrite subs_snoc, (k_subs nk). cbn; lia.
    + rewrite in_snoc in H. destruct H as [H|H]; [exact (k_for nk _ _ H)|discriminate].
    + rewrite in_snoc. left. apply (k_sub nk); assumption.
    + rewrite running_ready. destruct (Nat.eqb_spec k k0) as [<-|hne].
      * rewrite put_eq. destruct b; [rewrite hb by reflexivity; reflexivity|]. cbn. now rewrite andb_false_r.
      * rewrite put_ne by congruence. cbn. rewrite orb_true_r, andb_true_r. apply (k_run nk).
    + rewrite stopped_snoc, ready_snoc. destruct (k_new nk _ H) as [-> ->]. cbn. destruct (Nat.eqb_spec k k0); [lia|]. rewrite andb_false_r. auto.
    + apply (k_last nk); assumption.
    + apply (k_cur nk); assumption.
    + apply (k_torn nk); assumption.
    + rewrite (k_over nk). split; intros (j & x & h1 & h2 & h3).
      * exists j, x. rewrite !in_snoc. auto.
      * rewrite in_snoc in h1, h2. exists j, x. destruct h1 as [h1|h1]; [|discriminate]. destruct h2 as [h2|h2]; [auto|discriminate].
    + destruct (k_end nk _ _ H) as [h1 [j h2]]. split; [exact h1|]. exists j. rewrite in_snoc. auto.
    + apply (k_opt nk _ _ H H0).
    + rewrite finished_snoc, (k_flags nk). cbn. now rewrite orb_false_r.
  - apply (@I_plain s _ (TReady k b) (n_i h)); eqs.
  - apply (@C_keep s _ (TReady k b) (n_c h)); try reflexivity; [discriminate|]. intros [hr _]; discriminate.
  - fld. apply always_snoc; [exact (n_good h)|]. repeat split. all: discriminate.
Qed.

(** ** Subscribing *)
Lemma present_join : forall i c p, left i p = false -> present (p ++ [TJoin i c]) = present p ++ [i].
Proof.
  intros i c p h. unfold present. rewrite joined_snoc, filter_app. cbn [joined flat_map app filter].
  rewrite left_snoc. cbn. rewrite h. cbn. f_equal.
  apply filter_ext. intros j. rewrite left_snoc. cbn. now rewrite orb_false_r.
Qed.
Lemma join_Inv : forall s c, Inv s -> v_cur s = Some c -> v_over s c = None ->
  Inv (log (with_count (with_sub s (v_ni s) c true) (S (v_count s))) (TJoin (v_ni s) c)).
Proof.
  intros s c h hc hv. pose proof (n_i h) as ni. set (i := v_ni s).
  destruct (i_new ni i (le_n _)) as [hl hn].
  assert (hj : ~ In i (joined (v_tr s))) by (intros hin; pose proof (i_join ni _ hin); unfold i in *; lia).
  constructor.
  - apply (@K_plain s _ (TJoin i c) (n_k h)); eqs.
  - constructor; fld; intros.
    + rewrite joined_snoc in H. apply in_app_or in H. destruct H as [H|[<-|[]]]; [pose proof (i_join ni _ H); unfold i; lia|lia].
    + rewrite left_snoc, told_snoc. destruct (i_new ni i0) as [-> ->]; [unfold i in *; lia|auto].
    + rewrite joined_snoc. cbn [joined flat_map app]. apply Permutation_NoDup with (i :: joined (v_tr s)); [apply Permutation_cons_append|].
      constructor; [exact hj|apply (i_nodup ni)].
    + rewrite present_join by exact hl. rewrite in_snoc. destruct (Nat.eq_dec i0 i) as [->|hne]; [rewrite put_eq; tauto|].
      rewrite put_ne by exact hne. rewrite (i_open ni). intuition congruence.
    + rewrite in_snoc in H. destruct H as [H|H].
      * rewrite put_ne; [apply (i_on ni _ _ H)|]. intros ->. apply hj. apply in_flat_map. exists (TJoin i c0). cbn; auto.
      * injection H as <- <-. apply put_eq.
    + rewrite told_snoc. cbn. rewrite app_nil_r. apply (i_told ni).
    + rewrite present_join by exact hl. rewrite app_length, (i_count ni). cbn; lia.
  - apply (@C_keep s _ (TJoin i c) (n_c h)); try reflexivity; [intros c' hc'; cbn in hc'; congruence|]. intros [hr' _]; discriminate.
  - fld. apply always_snoc; [exact (n_good h)|]. repeat split; try exact hj.
    + intros k hk. pose proof (k_cur (n_k h) _ hk). rewrite hc in H. injection H as ->. apply (k_sub (n_k h)), (@run_lt s k (n_k h) hk).
    + intros c' hc' q e' r d he hu hkp. cbn in hc'. pose proof (c_same (n_c h) _ _ _ _ he hu hkp). congruence.
    + intros c' hc' q e' r he hrs hu. cbn in hc'. apply (c_fresh (n_c h) _ _ _ _ he hrs hu). congruence.
Qed.
Lemma present_out : forall p i x, present (p ++ [TOut i x]) = present p.
Proof.
  intros. unfold present. rewrite joined_snoc. cbn [joined flat_map]. rewrite app_nil_r.
  apply filter_ext. intros j. rewrite left_snoc. cbn. now rewrite orb_false_r.
Qed.
Lemma members_out : forall c p i x, members c (p ++ [TOut i x]) = members c p.
Proof.
  intros. unfold members. rewrite joined_to_snoc. cbn [joined_to flat_map]. rewrite app_nil_r.
  apply filter_ext. intros j. rewrite left_snoc. cbn. now rewrite orb_false_r.
Qed.
Lemma late_Inv : forall s c x, Inv s -> v_cur s = Some c -> v_over s c = Some x ->
  Inv (log (with_told (with_sub s (v_ni s) c false) (v_ni s) [x]) (TOut (v_ni s) x)).
Proof.
  intros s c x h hc hv. pose proof (n_i h) as ni. set (i := v_ni s).
  destruct (i_new ni i (le_n _)) as [hl hn].
  assert (hj : ~ In i (joined (v_tr s))) by (intros hin; pose proof (i_join ni _ hin); unfold i in *; lia).
  constructor.
  - apply (@K_plain s _ (TOut i x) (n_k h)); eqs.
  - constructor; fld; intros.
    + rewrite joined_snoc in H. cbn in H. rewrite app_nil_r in H. pose proof (i_join ni _ H); unfold i; lia.
    + rewrite left_snoc, told_snoc. destruct (i_new ni i0) as [-> ->]; [unfold i in *; lia|].
      cbn. destruct (Nat.eqb_spec i i0); [lia|auto].
    + rewrite joined_snoc. cbn. rewrite app_nil_r. apply (i_nodup ni).
    + rewrite present_out. destruct (Nat.eq_dec i0 i) as [->|hne].
      * rewrite put_eq. split; [discriminate|]. intros hin. apply present_joined in hin. contradiction.
      * rewrite put_ne by exact hne. apply (i_open ni).
    + rewrite in_snoc in H. destruct H as [H|H]; [|discriminate].
      rewrite put_ne; [apply (i_on ni _ _ H)|]. intros ->. apply hj. apply in_flat_map. exists (TJoin i c0). cbn; auto.
    + rewrite told_snoc. cbn. destruct (Nat.eqb_spec i i0) as [<-|hne].
      * rewrite put_eq, hn. reflexivity.
      * rewrite put_ne by congruence. rewrite app_nil_r. apply (i_told ni).
    + rewrite present_out. apply (i_count ni).
  - apply (@C_keep s _ (TOut i x) (n_c h)); try reflexivity; [discriminate|]. intros [hr' _]; discriminate.
  - fld. apply always_snoc; [exact (n_good h)|]. repeat split; try discriminate.
    right. split; [exact hj|]. split; [exact hn|]. split; [apply (k_end (n_k h) _ _ hv)|]. apply (k_opt (n_k h) _ _ hc hv).
Qed.
(** ** Telling *)
Lemma tell_Inv : forall s i x, Inv s -> v_open s i = true -> tells o (v_tr s) (TOut i x) ->
  Inv (log (with_told s i (v_told s i ++ [x])) (TOut i x)).
Proof.
  intros s i x h hi ht. pose proof (n_i h) as ni.
  assert (hp : In i (present (v_tr s))) by (apply (i_open ni); exact hi).
  constructor.
  - apply (@K_plain s _ (TOut i x) (n_k h)); eqs.
  - constructor; fld; intros.
    + rewrite joined_snoc in H. cbn in H. rewrite app_nil_r in H. apply (i_join ni _ H).
    + rewrite left_snoc, told_snoc. destruct (i_new ni i0) as [-> ->]; [lia|].
      pose proof (i_join ni _ (present_joined _ _ hp)). cbn. destruct (Nat.eqb_spec i i0); [lia|auto].
    + rewrite joined_snoc. cbn. rewrite app_nil_r. apply (i_nodup ni).
    + rewrite present_out. apply (i_open ni).
    + rewrite in_snoc in H. destruct H as [H|H]; [|discriminate]. apply (i_on ni _ _ H).
    + rewrite told_snoc. cbn. destruct (Nat.eqb_spec i i0) as [<-|hne].
      * rewrite put_eq, (i_told ni). reflexivity.
      * rewrite put_ne by congruence. rewrite app_nil_r. apply (i_told ni).
    + rewrite present_out. apply (i_count ni).
  - apply (@C_keep s _ (TOut i x) (n_c h)); try reflexivity; [discriminate|]. intros [hr' _]; discriminate.
  - fld. apply always_snoc; [exact (n_good h)|]. repeat split; try discriminate. exact ht.
Qed.
End Inv.
