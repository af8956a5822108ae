(** The connectable observable keeps its invariants and does what it should. *)
From Verif Require Import Base SubscrModel LifeModel CombModel ShareModel ShareSpec ShareProofs.
From Coq Require Import Permutation.
Set Implicit Arguments.

Section Run.
Variables A E : Type.
Notation call := (ncall A E).
Notation ev := (ev A E).
Notation st := (st A E).
Variable o : opts.
Variable down : nat -> list call -> bool.
Variable sync : nat -> list call.
Variable live : nat -> bool.
Variable order : nat -> list nat -> list nat.
Hypothesis ordered : forall n l, Permutation (order n l) l.
Implicit Types (p l t : list ev) (e : ev).
Notation Inv := (Inv o).

Definition Reg (s : st) : Prop := forall k, running k (v_tr s) = true -> ready k (v_tr s) = true -> v_conn s = Some k.
Definition W (s : st) : Prop := forall k, running k (v_tr s) = true -> ready k (v_tr s) = true.
Definition Quiet (s : st) : Prop := forall i, v_open s i = true -> v_over s (v_on s i) = None.
Definition D l : Prop := answers (dropped o) l.
Definition Q l : Prop := answers (quits down) l.
Definition Sh l : Prop := answers (@shared A E) l.

Lemma D_mono : forall p e (s u : list ev), dropped o p e s -> dropped o p e (s ++ u).
Proof.
  intros p e s u h. destruct e; cbn in *; auto. intros h1 h2 h3 k h4 h5. destruct (h h1 h2 h3 k h4 h5) as [s' ->]. eexists; reflexivity.
Qed.
Lemma Q_mono : forall p e (s u : list ev), quits down p e s -> quits down p e (s ++ u).
Proof. intros p e s u h. destruct e; cbn in *; auto. intros h1 h2. destruct (h h1 h2) as [s' ->]. eexists; reflexivity. Qed.
Lemma Sh_mono : forall p e (s u : list ev), @shared A E p e s -> shared p e (s ++ u).
Proof.
  intros p e s u h. destruct e; cbn in *; auto.
  assert (hh : (forall c, In (TSub k c) p -> exists s1 s2, s = s1 ++ s2 /\ forallb (fun e => negb (input e)) s1 = true /\ Permutation (outs s1) (map (fun i => (i, x)) (members c p))) ->
               forall c, In (TSub k c) p -> exists s1 s2, s ++ u = s1 ++ s2 /\ forallb (fun e => negb (input e)) s1 = true /\ Permutation (outs s1) (map (fun i => (i, x)) (members c p))).
  { intros h0 c hc. destruct (h0 c hc) as (s1 & s2 & -> & h1 & h2). exists s1, (s2 ++ u). rewrite app_assoc. auto. }
  destruct x; auto.
Qed.
Lemma split_cons : forall (X : Type) (a : X) (t p : list X) (e : X) (s : list X), a :: t = p ++ e :: s -> (p = [] /\ e = a /\ s = t) \/ exists q, p = a :: q /\ t = q ++ e :: s.
Proof. intros X a t p e s h. destruct p as [|b p]; cbn in h; injection h; intros; subst; [left; auto|right; exists p; auto]. Qed.
Lemma D_quiet : forall l t, D l -> (forall i, ~ In (TLeave i) t) -> D (l ++ t).
Proof.
  intros l t h ht. apply answers_app; [exact D_mono|exact h|]. intros p e s ->. destruct e; cbn; auto.
  exfalso. apply (ht i). rewrite in_app_iff. cbn; auto.
Qed.
Lemma Q_quiet : forall l t, Q l -> (forall i x, ~ In (TOut i x) t) -> Q (l ++ t).
Proof.
  intros l t h ht. apply answers_app; [exact Q_mono|exact h|]. intros p e s ->. destruct e; cbn; auto.
  exfalso. apply (ht i x). rewrite in_app_iff. cbn; auto.
Qed.
Lemma Sh_quiet : forall l t, Sh l -> (forall k x, ~ In (TIn k x) t) -> Sh (l ++ t).
Proof.
  intros l t h ht. apply answers_app; [exact Sh_mono|exact h|]. intros p e s ->. destruct e; cbn; auto.
  exfalso. apply (ht k x). rewrite in_app_iff. cbn; auto.
Qed.

Definition calm t : bool := forallb (fun e : ev => negb (input e)) t.
(** What consequences leave as it is. *)
Definition fixed (s s' : st) : Prop :=
  v_ni s' = v_ni s /\ v_on s' = v_on s /\ v_nk s' = v_nk s /\ v_for s' = v_for s /\ v_over s' = v_over s.
Lemma fixed_refl : forall s, fixed s s. Proof. intros s. repeat split. Qed.
Lemma fixed_trans : forall s1 s2 s3, fixed s1 s2 -> fixed s2 s3 -> fixed s1 s3.
Proof. intros s1 s2 s3 (a1 & a2 & a3 & a4 & a5) (b1 & b2 & b3 & b4 & b5). unfold fixed. repeat split; congruence. Qed.

Lemma end_fixed : forall k (s : st), fixed s (end_connection o k s).
Proof.
  intros k s. unfold end_connection, connection_unsubscribe. destruct (v_run s k); [|apply fixed_refl].
  destruct (deaf _ _); [repeat split|]. destruct (o_disconnect o); repeat split.
Qed.
Lemma end_open : forall k (s : st), v_open (end_connection o k s) = v_open s.
Proof.
  intros k s. unfold end_connection, connection_unsubscribe. destruct (v_run s k); [|reflexivity].
  destruct (deaf _ _); [reflexivity|]. destruct (o_disconnect o); reflexivity.
Qed.
Lemma end_tr : forall k (s : st), v_tr (end_connection o k s) = v_tr s ++ if v_run s k then [TEnd k] else [].
Proof.
  intros k s. unfold end_connection, connection_unsubscribe. destruct (v_run s k); [|now rewrite app_nil_r].
  destruct (deaf _ _); [reflexivity|]. destruct (o_disconnect o); reflexivity.
Qed.
Lemma end_conn : forall k (s : st), v_conn (end_connection o k s) = v_conn s.
Proof.
  intros k s. unfold end_connection, connection_unsubscribe. destruct (v_run s k); [|reflexivity].
  destruct (deaf _ _); [reflexivity|]. destruct (o_disconnect o); reflexivity.
Qed.
Lemma end_Inv : forall k (s : st), Inv s -> (v_run s k = true -> ends o (v_tr s) (TEnd k)) -> Inv (end_connection o k s).
Proof.
  intros k s h he. unfold end_connection. destruct (v_run s k) eqn:hr; [|exact h].
  apply unsub_Inv; auto.
  - rewrite <- (k_run (n_k h)). exact hr.
  - apply good_end. auto.
Qed.
(** Nothing runs once what was running has been ended. *)
Lemma end_none : forall k (s : st), Inv s -> (forall j, running j (v_tr s) = true -> j = k) -> forall j, running j (v_tr (end_connection o k s)) = false.
Proof.
  intros k s h hk j. rewrite end_tr. destruct (v_run s k) eqn:hr.
  - rewrite (@running_stop A E j k) by (try (intros; discriminate); cbn; apply orb_false_r).
    destruct (running j (v_tr s)) eqn:hj; [|reflexivity]. rewrite (hk _ hj), Nat.eqb_refl. reflexivity.
  - rewrite app_nil_r. destruct (running j (v_tr s)) eqn:hj; [|reflexivity].
    pose proof (hk _ hj). subst. rewrite (k_run (n_k h)) in hr. congruence.
Qed.
Lemma run_eq : forall (s : st) j k, Inv s -> running j (v_tr s) = true -> running k (v_tr s) = true -> j = k.
Proof. intros s j k h h1 h2. pose proof (k_last (n_k h) _ h1). pose proof (k_last (n_k h) _ h2). lia. Qed.

Lemma leave_ok : forall i (s : st), Inv s -> Reg s -> D (v_tr s) -> v_open s i = true ->
  let s' := leave o i s in
  Inv s' /\ Reg s' /\ D (v_tr s') /\ fixed s s' /\ (forall j, v_open s' j = put (v_open s) i false j) /\
  (forall j, running j (v_tr s') = true -> running j (v_tr s) = true) /\
  exists t, v_tr s' = v_tr s ++ TLeave i :: t /\ (t = [] \/ exists k, t = [TEnd k]).
Proof.
  intros i s h hr hd hi. cbn. unfold leave. rewrite hi. cbn [negb]. fold (leave0 i s).
  pose proof (leave0_Inv i h hi) as h1. set (s1 := leave0 i s) in *.
  assert (ht : v_tr s1 = v_tr s ++ [TLeave i]) by reflexivity.
  assert (hrun : forall k, running k (v_tr s1) = running k (v_tr s)) by (intros; rewrite ht; apply running_plain; reflexivity).
  assert (hrdy : forall k, ready k (v_tr s1) = ready k (v_tr s)) by (intros; rewrite ht; apply ready_plain; reflexivity).
  assert (hreg : Reg s1).
  { intros k h2 h3. rewrite hrun in h2. rewrite hrdy in h3. exact (hr k h2 h3). }
  assert (hdone : forall t, dropped o (v_tr s) (TLeave i) t -> (forall j, ~ In (TLeave j) t) -> D (v_tr s ++ TLeave i :: t)).
  { intros t hdt hno. apply answers_app; [exact D_mono|exact hd|]. intros p e u Heq.
    destruct (split_cons _ _ _ Heq) as [[-> [-> ->]]|[p' [-> Heq']]]; [now rewrite app_nil_r|].
    destruct e; cbn; auto. exfalso. apply (hno i0). rewrite Heq', in_app_iff. cbn; auto. }
  assert (hcount : (v_count s1 =? 0) = true <-> present (v_tr s1) = []).
  { rewrite (i_count (n_i h1)), Nat.eqb_eq. apply length_zero_iff_nil. }
  assert (hfin : v_errored s1 || v_completed s1 = finished (v_tr s)).
  { rewrite (k_flags (n_k h1)), ht, finished_snoc. cbn. now rewrite orb_false_r. }
  destruct (o_zero o && (v_count s1 =? 0) && negb (v_errored s1) && negb (v_completed s1)) eqn:hc.
  - apply andb_true_iff in hc. destruct hc as [hc hc4]. apply andb_true_iff in hc. destruct hc as [hc hc3]. apply andb_true_iff in hc. destruct hc as [hc1 hc2].
    assert (hpres : present (v_tr s1) = []) by (apply hcount; exact hc2).
    assert (hf : finished (v_tr s) = false) by (rewrite <- hfin; destruct (v_errored s1), (v_completed s1); try discriminate; reflexivity).
    assert (hends : forall k, v_run s1 k = true -> ends o (v_tr (with_conn s1 None)) (TEnd k)).
    { intros k hk. cbn [ends]. fld. split; [rewrite <- (k_run (n_k h1)); exact hk|]. exists (v_tr s). right. exists i.
      split; [reflexivity|]. split; [exact hc1|]. split; [exact hpres|]. rewrite ht, finished_snoc, hf. reflexivity. }
    assert (h2 : Inv (with_conn s1 None)) by (apply conn_Inv; exact h1).
    destruct (v_conn s1) as [k|] eqn:hk.
    + split; [apply end_Inv; [exact h2|apply hends]|].
      assert (hnone : forall j, ready j (v_tr s1) = true -> running j (v_tr (end_connection o k (with_conn s1 None))) = false).
      { intros j hj. destruct (running j (v_tr (end_connection o k (with_conn s1 None)))) eqn:hj'; [|reflexivity]. exfalso.
        assert (hj2 : running j (v_tr s1) = true).
        { rewrite end_tr in hj'. fld. destruct (v_run s1 k); [|now rewrite app_nil_r in hj'].
          rewrite (@running_stop A E j k) in hj' by (try (intros; discriminate); cbn; apply orb_false_r). now apply andb_true_iff in hj'. }
        pose proof (hreg _ hj2 hj). rewrite hk in H. injection H as ->.
        rewrite (@end_none j (with_conn s1 None)) in hj'; [discriminate|exact h2|]. intros i0 hi0. exact (@run_eq _ _ _ h2 hi0 hj2). }
      assert (hrdy2 : forall j, ready j (v_tr (end_connection o k (with_conn s1 None))) = ready j (v_tr s1)).
      { intros j. rewrite end_tr. fld. destruct (v_run s1 k); [|now rewrite app_nil_r]. rewrite ready_snoc. cbn. apply orb_false_r. }
      split. { intros j hj1 hj2. rewrite hrdy2 in hj2. rewrite hnone in hj1 by exact hj2. discriminate. }
      rewrite end_tr. fld.
      split.
      { rewrite ht, <- app_assoc. apply hdone.
        - cbn [dropped]. intros _ _ _ j hj1 hj2. rewrite <- hrun in hj1. rewrite <- hrdy in hj2.
          pose proof (hreg _ hj1 hj2). rewrite hk in H. injection H as ->. rewrite (k_run (n_k h1)), hj1. eexists; reflexivity.
        - intros j hj. destruct (v_run s1 k); cbn in hj; intuition discriminate. }
      split. { eapply fixed_trans; [|apply end_fixed]. repeat split. }
      split. { intros j. rewrite end_open. reflexivity. }
      split. { intros j hj. rewrite <- hrun. destruct (v_run s1 k); [|now rewrite app_nil_r in hj].
          rewrite (@running_stop A E j k) in hj by (try (intros; discriminate); cbn; apply orb_false_r). now apply andb_true_iff in hj. }
      rewrite ht, <- app_assoc. eexists. split; [reflexivity|]. destruct (v_run s1 k); [right; eauto|left; reflexivity].
    + split; [exact h2|].
      assert (hno : forall j, running j (v_tr s1) = true -> ready j (v_tr s1) = true -> False).
      { intros j hj1 hj2. pose proof (hreg _ hj1 hj2). congruence. }
      split. { intros j hj1 hj2. exfalso. exact (hno _ hj1 hj2). }
      split.
      { fld. rewrite ht. apply hdone; [|intros j []]. cbn [dropped]. intros _ _ _ j hj1 hj2. exfalso. apply (hno j); [rewrite hrun|rewrite hrdy]; assumption. }
      split; [repeat split|]. split; [reflexivity|].
      split; [intros j hj; rewrite <- hrun; exact hj|].
      exists []. auto.
  - split; [exact h1|]. split; [exact hreg|].
    split.
    { rewrite ht. apply hdone; [|intros j []]. cbn [dropped]. intros hz hp hf. exfalso. rewrite <- ht in hp. apply hcount in hp.
      rewrite hz, hp in hc. rewrite hf in hfin. apply orb_false_iff in hfin. destruct hfin as [hf1 hf2]. rewrite hf1, hf2 in hc. discriminate. }
    split; [repeat split|]. split; [reflexivity|].
    split; [intros j hj; rewrite <- hrun; exact hj|].
    exists []. auto.
Qed.

(** *** Telling *)
Record G0 (s : st) : Prop := { g_inv : Inv s; g_reg : Reg s; g_d : D (v_tr s); g_q : Q (v_tr s) }.
(** The call that is being passed on. *)
Definition Ctx (c : nat) (x : call) (s : st) : Prop :=
  exists q r k, v_tr s = q ++ TIn k x :: r /\ calm r = true /\ In (TSub k c) q /\
  forall i, v_open s i = true -> v_on s i = c -> In i (members c q).

Lemma tell_ok : forall c x i s, G0 s -> Ctx c x s -> v_open s i = true -> v_on s i = c ->
  let s' := tell_sub o down i x s in
  G0 s' /\ Ctx c x s' /\ fixed s s' /\ (forall j, j <> i -> v_open s' j = v_open s j) /\
  (is_closing x = true -> v_open s' i = false) /\ (v_open s' i = true -> v_open s i = true) /\
  (forall j, running j (v_tr s') = true -> running j (v_tr s) = true) /\
  exists t, v_tr s' = v_tr s ++ t /\ calm t = true /\ outs t = [(i, x)].
Proof.
  intros c x i s h hx hi hc. cbn. unfold tell_sub. rewrite hi. cbn [negb].
  destruct hx as (q & r & k & hq & hr & hk & hin). pose proof (g_inv h) as hinv.
  assert (hp : In i (present (v_tr s))) by (apply (i_open (n_i hinv)); exact hi).
  assert (ht : tells o (v_tr s) (TOut i x)).
  { left. exists k, c, q, r. repeat split; auto. }
  pose proof (@tell_Inv A E o s i x hinv hi ht) as h1.
  set (s1 := log (with_told s i (v_told s i ++ [x])) (TOut i x)) in *.
  assert (ht1 : v_tr s1 = v_tr s ++ [TOut i x]) by reflexivity.
  assert (hrun : forall j, running j (v_tr s1) = running j (v_tr s)) by (intros; rewrite ht1; apply running_plain; reflexivity).
  assert (hreg : Reg s1).
  { intros j h2 h3. rewrite hrun in h2. rewrite ht1, ready_plain in h3 by reflexivity. exact (g_reg h _ h2 h3). }
  assert (hd : D (v_tr s1)).
  { rewrite ht1. apply D_quiet; [apply (g_d h)|]. intros j [hj|[]]. discriminate. }
  rewrite (i_told (n_i hinv)).
  destruct (is_closing x || down i (told i (v_tr s) ++ [x])) eqn:hcl.
  - destruct (@leave_ok i s1 h1 hreg hd hi) as (a1 & a2 & a3 & a4 & a5 & a6 & t & a7 & a8).
    split.
    { constructor; auto. rewrite a7, ht1, <- app_assoc. apply answers_app; [exact Q_mono|apply (g_q h)|].
      intros p e u Heq. destruct (split_cons _ _ _ Heq) as [[-> [-> ->]]|[p' [-> Heq']]].
      - rewrite app_nil_r. cbn. intros _ _. eauto.
      - destruct e; cbn; auto. exfalso. assert (hin' : In (TOut i0 x0) (TLeave i :: t)) by (cbn [app] in Heq'; rewrite Heq', in_app_iff; cbn; auto).
        destruct hin' as [hin'|hin']; [discriminate|]. destruct a8 as [->|[k0 ->]]; cbn in hin'; intuition discriminate. }
    assert (hcalm : calm (TOut i x :: TLeave i :: t) = true) by (destruct a8 as [->|[k0 ->]]; reflexivity).
    split.
    { exists q, (r ++ TOut i x :: TLeave i :: t), k. split; [|split; [|split; [exact hk|]]].
      - rewrite a7, ht1, hq, <- !app_assoc. reflexivity.
      - unfold calm. rewrite forallb_app. fold (calm r). rewrite hr. exact hcalm.
      - intros j hj1 hj2. destruct a4 as (b1 & b2 & _). rewrite b2 in hj2. rewrite a5 in hj1. unfold put in hj1. destruct (j =? i); [discriminate|]. apply hin; assumption. }
    split; [eapply fixed_trans; [|exact a4]; repeat split|].
    split; [intros j hj; rewrite a5, put_ne by exact hj; reflexivity|].
    split; [intros _; rewrite a5; apply put_eq|].
    split; [auto|].
    split; [intros j hj; rewrite <- hrun; auto|].
    exists (TOut i x :: TLeave i :: t). split; [rewrite a7, ht1, <- app_assoc; reflexivity|]. split; [exact hcalm|].
    destruct a8 as [->|[k0 ->]]; reflexivity.
  - apply orb_false_iff in hcl. destruct hcl as [hcl1 hcl2].
    split.
    { constructor; auto. rewrite ht1. apply answers_app; [exact Q_mono|apply (g_q h)|].
      intros p e u Heq. destruct (split_cons _ _ _ Heq) as [[-> [-> ->]]|[p' [-> Heq']]].
      - rewrite app_nil_r. cbn. intros _. rewrite hcl1, hcl2. discriminate.
      - destruct p'; discriminate. }
    split.
    { exists q, (r ++ [TOut i x]), k. split; [|split; [|split; [exact hk|exact hin]]].
      - rewrite ht1, hq, <- !app_assoc. reflexivity.
      - unfold calm. rewrite forallb_app. fold (calm r). rewrite hr. reflexivity. }
    split; [repeat split|]. split; [reflexivity|]. split; [congruence|]. split; [auto|].
    split; [intros j hj; rewrite <- hrun; auto|].
    exists [TOut i x]. auto.
Qed.

Lemma multicast_ok : forall c x is s, NoDup is -> G0 s -> Ctx c x s ->
  let s' := multicast o down c x is s in
  G0 s' /\ fixed s s' /\ (forall j, v_open s' j = true -> v_open s j = true) /\
  (is_closing x = true -> forall j, In j is -> v_on s j = c -> v_open s' j = false) /\
  (forall j, running j (v_tr s') = true -> running j (v_tr s) = true) /\
  exists t, v_tr s' = v_tr s ++ t /\ calm t = true /\
    outs t = map (fun i => (i, x)) (filter (fun i => v_open s i && (v_on s i =? c)) is).
Proof.
  intros c x is. induction is as [|i is IH]; intros s hn h hx; cbn [multicast].
  - cbn. split; [exact h|]. split; [apply fixed_refl|]. split; [auto|]. split; [intros _ j []|]. split; [auto|].
    exists []. rewrite app_nil_r. auto.
  - inversion hn as [|i' is' hi his]; subst.
    destruct (v_open s i && (v_on s i =? c)) eqn:hoc.
    + apply andb_true_iff in hoc. destruct hoc as [ho hc]. rewrite hc. apply Nat.eqb_eq in hc.
      destruct (@tell_ok c x i s h hx ho hc) as (a1 & a2 & a3 & a4 & a5 & a6 & a7 & t & a8 & a9 & a10).
      set (s1 := tell_sub o down i x s) in *.
      destruct (IH s1 his a1 a2) as (b1 & b2 & b3 & b4 & b5 & u & b6 & b7 & b8).
      pose proof a3 as (_ & hon & _).
      split; [exact b1|]. split; [exact (fixed_trans a3 b2)|].
      split. { intros j hj. apply b3 in hj. destruct (Nat.eq_dec j i) as [->|hne]; [auto|]. rewrite <- a4; auto. }
      split.
      { intros hcl j hj hjc. destruct hj as [<-|hj].
        - destruct (v_open (multicast o down c x is s1) i) eqn:hh; [|reflexivity]. apply b3 in hh. rewrite (a5 hcl) in hh. discriminate.
        - apply b4; auto. rewrite hon. exact hjc. }
      split; [auto|].
      exists (t ++ u). split; [rewrite b6, a8, app_assoc; reflexivity|].
      split. { unfold calm in *. rewrite forallb_app, a9, b7. reflexivity. }
      unfold outs in *. rewrite flat_map_app, a10, b8. cbn [filter]. rewrite ho, hc, Nat.eqb_refl. cbn. f_equal. f_equal.
      apply filter_ext_in. intros j hj. rewrite hon, a4; [reflexivity|]. congruence.
    + assert (heq : (if v_on s i =? c then tell_sub o down i x s else s) = s).
      { apply andb_false_iff in hoc. destruct hoc as [hoc|hoc]; [|rewrite hoc; reflexivity].
        unfold tell_sub. rewrite hoc. cbn. destruct (v_on s i =? c); reflexivity. }
      rewrite heq. destruct (IH s his h hx) as (b1 & b2 & b3 & b4 & b5 & u & b6 & b7 & b8).
      split; [exact b1|]. split; [exact b2|]. split; [exact b3|].
      split.
      { intros hcl j hj hjc. destruct hj as [<-|hj]; [|auto].
        destruct (v_open (multicast o down c x is s) i) eqn:hh; [|reflexivity]. apply b3 in hh. rewrite hh, hjc, Nat.eqb_refl in hoc. discriminate. }
      split; [exact b5|]. exists u. split; [exact b6|]. split; [exact b7|]. cbn [filter]. rewrite hoc. exact b8.
Qed.

(** *** Members *)
Lemma in_joined_to : forall c p i, In i (joined_to c p) <-> In (TJoin i c) p.
Proof.
  intros c p i. unfold joined_to. rewrite in_flat_map. split.
  - intros [e [h1 h2]]. destruct e; try (destruct h2; fail). destruct (Nat.eqb_spec c0 c); [|destruct h2]. destruct h2 as [<-|[]]. subst. exact h1.
  - intros h. exists (TJoin i c). split; [exact h|]. cbn. rewrite Nat.eqb_refl. cbn; auto.
Qed.
Lemma in_joined : forall p i, In i (joined p) <-> exists c, In (TJoin i c) p.
Proof.
  intros p i. unfold joined. rewrite in_flat_map. split.
  - intros [e [h1 h2]]. destruct e; try (destruct h2; fail). destruct h2 as [<-|[]]. eauto.
  - intros [c h]. exists (TJoin i c). cbn; auto.
Qed.
Lemma members_open : forall (s : st) c i, Inv s -> (In i (members c (v_tr s)) <-> v_open s i = true /\ v_on s i = c).
Proof.
  intros s c i h. rewrite (i_open (n_i h)). unfold members, present. rewrite !filter_In, in_joined_to, in_joined. split.
  - intros [h1 h2]. split; [|apply (i_on (n_i h) _ _ h1)]. split; [eauto|exact h2].
  - intros [[[d h1] h2] h3]. pose proof (i_on (n_i h) _ _ h1). split; [|exact h2]. congruence.
Qed.
Lemma joined_to_NoDup : forall c p, NoDup (joined p) -> NoDup (joined_to c p).
Proof.
  intros c p. induction p as [|e p IH]; cbn; [auto|]. destruct e; cbn; auto.
  intros h. inversion h; subst. destruct (c0 =? c); cbn; auto. constructor; auto.
  intros hh. apply H1. apply in_joined. exists c. apply in_joined_to in hh. exact hh.
Qed.
Lemma members_perm : forall (s : st) c, Inv s -> forall n,
  Permutation (filter (fun i => v_open s i && (v_on s i =? c)) (order n (seq 0 (v_ni s)))) (members c (v_tr s)).
Proof.
  intros s c h n. apply NoDup_Permutation.
  - apply NoDup_filter. apply Permutation_NoDup with (seq 0 (v_ni s)); [symmetry; apply ordered|apply seq_NoDup].
  - apply NoDup_filter, joined_to_NoDup, (i_nodup (n_i h)).
  - intros i. rewrite filter_In, (@members_open s c i h), andb_true_iff, Nat.eqb_eq. split; [tauto|].
    intros hh. split; [|exact hh]. apply Permutation_in with (seq 0 (v_ni s)); [symmetry; apply ordered|].
    apply in_seq. split; [lia|]. cbn. apply (i_join (n_i h)), present_joined, (i_open (n_i h)). apply hh.
Qed.

(** *** The source *)
Record G (s : st) : Prop := { g_0 : G0 s; g_sh : Sh (v_tr s); g_quiet : Quiet s }.
(** What signals leave as they are. *)
Definition kept (s s' : st) : Prop := v_ni s' = v_ni s /\ v_nk s' = v_nk s /\ (forall j, running j (v_tr s') = true -> running j (v_tr s) = true) /\
  exists t, v_tr s' = v_tr s ++ t /\ forallb (fun e => match e with TReady _ _ | TSub _ _ | TJoin _ _ | TUser => false | _ => true end) t = true.
Lemma kept_trans : forall s1 s2 s3, kept s1 s2 -> kept s2 s3 -> kept s1 s3.
Proof.
  intros s1 s2 s3 (a1 & a2 & a3 & t & a4 & a5) (b1 & b2 & b3 & u & b4 & b5). unfold kept.
  split; [congruence|]. split; [congruence|]. split; [auto|]. exists (t ++ u). rewrite b4, a4, app_assoc, forallb_app, a5, b5. auto.
Qed.
Lemma calm_kept : forall t, calm t = true -> forallb (fun e : ev => match e with TReady _ _ | TSub _ _ | TJoin _ _ | TUser => false | _ => true end) t = true.
Proof. intros t h. rewrite forallb_forall in *. intros e he. unfold calm in h. rewrite forallb_forall in h. specialize (h e he). destruct e; try reflexivity; discriminate. Qed.

Lemma running_in_sub : forall j k x p, running j (p ++ [TIn k x]) = true -> running j p = true.
Proof.
  intros j k x p h. unfold running in *. rewrite subscribed_snoc, stopped_snoc in h. apply andb_true_iff in h. destruct h as [h1 h2].
  cbn in h1. rewrite orb_false_r in h1. rewrite h1. rewrite negb_orb in h2. now apply andb_true_iff in h2.
Qed.
Lemma ready_in : forall j k x p, ready j (p ++ [TIn k x]) = ready j p.
Proof. intros. rewrite ready_snoc. cbn. apply orb_false_r. Qed.
Lemma Sh_in : forall p k x t, Sh p -> (forall k x, ~ In (TIn k x) t) -> shared p (TIn k x) t -> Sh (p ++ TIn k x :: t).
Proof.
  intros p k x t h ht hx. apply answers_app; [exact Sh_mono|exact h|]. intros q e u Heq.
  destruct (split_cons _ _ _ Heq) as [[-> [-> ->]]|[p' [-> Heq']]]; [now rewrite app_nil_r|].
  destruct e; cbn; auto. exfalso. apply (ht k0 x0). rewrite Heq', in_app_iff. cbn; auto.
Qed.
Lemma no_members : forall (s : st) c, Inv s -> Quiet s -> v_over s c <> None -> members c (v_tr s) = [].
Proof.
  intros s c h hq ho. destruct (members c (v_tr s)) as [|i l] eqn:hm; [reflexivity|]. exfalso.
  assert (hi : In i (members c (v_tr s))) by (rewrite hm; cbn; auto). apply members_open in hi; [|exact h]. destruct hi as [h1 h2].
  apply hq in h1. rewrite h2 in h1. contradiction.
Qed.
(** A call that is told to nobody because the connector is over. *)
Lemma shared_deaf : forall s k x, Inv s -> Quiet s -> running k (v_tr s) = true -> deaf k s = true -> shared (v_tr s) (TIn k x) [].
Proof.
  intros s k x h hq hk hd.
  assert (hov : v_over s (v_for s k) <> None).
  { unfold deaf in hd. rewrite (k_torn (n_k h) _ hk) in hd. cbn in hd. destruct (v_over s (v_for s k)); [discriminate|discriminate]. }
  assert (hh : forall c, In (TSub k c) (v_tr s) -> exists s1 s2 : list ev, [] = s1 ++ s2 /\ forallb (fun e => negb (input e)) s1 = true /\ Permutation (outs s1) (map (fun i => (i, x)) (members c (v_tr s)))).
  { intros c hc. exists [], []. split; [reflexivity|]. split; [reflexivity|]. destruct (k_for (n_k h) _ _ hc) as [<- _].
    rewrite (@no_members s _ h hq hov). constructor. }
  destruct x; cbn; auto.
Qed.
(** One that is told to all. *)
Lemma shared_all : forall s k x t c, Inv s -> running k (v_tr s) = true -> c = v_for s k -> calm t = true ->
  Permutation (outs t) (map (fun i => (i, x)) (members c (v_tr s))) -> shared (v_tr s) (TIn k x) t.
Proof.
  intros s k x t c h hk -> ht hp.
  assert (hh : forall c, In (TSub k c) (v_tr s) -> exists s1 s2 : list ev, t = s1 ++ s2 /\ forallb (fun e => negb (input e)) s1 = true /\ Permutation (outs s1) (map (fun i => (i, x)) (members c (v_tr s)))).
  { intros c hc. exists t, []. rewrite app_nil_r. split; [reflexivity|]. split; [exact ht|]. destruct (k_for (n_k h) _ _ hc) as [<- _]. exact hp. }
  destruct x; cbn; auto.
Qed.
Lemma calm_no_in : forall t, calm t = true -> forall k x, ~ In (TIn k x) t.
Proof. intros t h k x hin. unfold calm in h. rewrite forallb_forall in h. specialize (h _ hin). discriminate. Qed.

Lemma finish_ok : forall s s' k x, G s -> running k (v_tr s) = true -> is_end x = true -> deaf k s = false ->
  Inv s' -> v_conn s' = v_conn s -> v_ni s' = v_ni s -> v_on s' = v_on s -> v_open s' = v_open s -> v_nk s' = v_nk s -> v_over s' = put (v_over s) (v_for s k) (Some x) ->
  v_tr s' = v_tr s ++ [TIn k x] -> 
  G (with_torn (tell_all o down order (v_for s k) x s') k true) /\ kept s (with_torn (tell_all o down order (v_for s k) x s') k true).
Proof.
  intros s s' k x h hk hx hd hi q1 q2 q3 q4 q5 q6 ht. pose proof (g_0 h) as h0. pose proof (g_inv h0) as hinv.
  assert (hcl : is_closing x = true) by (destruct x; try discriminate; reflexivity).
  assert (hg0 : G0 s').
  { constructor; auto.
    - intros j h1 h2. rewrite ht in h1, h2. apply running_in_sub in h1. rewrite ready_in in h2. rewrite q1. exact (g_reg h0 _ h1 h2).
    - rewrite ht. apply D_quiet; [apply (g_d h0)|]. intros j [hj|[]]; discriminate.
    - rewrite ht. apply Q_quiet; [apply (g_q h0)|]. intros j y [hj|[]]; discriminate. }
  set (c := v_for s k) in *.
  assert (hctx : Ctx c x s').
  { exists (v_tr s), [], k. split; [exact ht|]. split; [reflexivity|]. split; [apply (k_sub (n_k hinv)), (@run_lt A E o s k (n_k hinv) hk)|].
    intros i h1 h2. rewrite q4 in h1. rewrite q3 in h2. apply members_open; auto. }
  assert (hnd : NoDup (order (length (v_tr s')) (seq 0 (v_ni s')))) by (apply Permutation_NoDup with (seq 0 (v_ni s')); [symmetry; apply ordered|apply seq_NoDup]).
  destruct (@multicast_ok c x _ s' hnd hg0 hctx) as (b1 & b2 & b3 & b4 & b5 & u & b6 & b7 & b8).
  fold (tell_all o down order c x s') in *. set (s2 := tell_all o down order c x s') in *.
  destruct b2 as (c1 & c2 & c3 & c4 & c5).
  assert (hnr : running k (v_tr s2) = false).
  { destruct (running k (v_tr s2)) eqn:hh; [|reflexivity]. apply b5 in hh. rewrite ht in hh.
    rewrite (@running_stop A E k k) in hh; [rewrite Nat.eqb_refl, andb_false_r in hh; discriminate| |intros; discriminate].
    cbn. rewrite hcl, Nat.eqb_refl. reflexivity. }
  split.
  - constructor.
    + constructor; [apply torn_Inv; [apply b1|exact hnr]|exact (g_reg b1)|exact (g_d b1)|exact (g_q b1)].
    + fld. rewrite b6, ht, <- app_assoc. apply Sh_in; [apply (g_sh h)|apply calm_no_in; exact b7|].
      apply shared_all with c; auto. rewrite b8. apply Permutation_map. rewrite q2, q3, q4. apply members_perm; exact hinv.
    + intros i hio. fld. pose proof (b3 _ hio) as hio'. rewrite c5, c2, q6. unfold put.
      destruct (Nat.eqb_spec (v_on s' i) c) as [heq|hne].
      * exfalso. rewrite (b4 hcl i) in hio; [discriminate| |exact heq].
        apply Permutation_in with (seq 0 (v_ni s')); [symmetry; apply ordered|]. apply in_seq. split; [lia|]. cbn.
        apply (i_join (n_i hi)), present_joined, (i_open (n_i hi)). exact hio'.
      * rewrite q3. apply (g_quiet h). rewrite <- q4. exact hio'.
  - unfold kept. fld. split; [congruence|]. split; [congruence|].
    split. { intros j hj. apply b5 in hj. rewrite ht in hj. apply running_in_sub in hj. exact hj. }
    exists (TIn k x :: u). split; [rewrite b6, ht, <- app_assoc; reflexivity|]. cbn. apply calm_kept; exact b7.
Qed.

Lemma signal_ok : forall k x s, G s -> G (signal o down order k x s) /\ kept s (signal o down order k x s).
Proof.
  intros k x s h. pose proof (g_0 h) as h0. pose proof (g_inv h0) as hinv. unfold signal.
  destruct (v_run s k) eqn:hr; cbn [negb].
  2:{ split; [exact h|]. unfold kept. repeat split; auto. exists []. rewrite app_nil_r. auto. }
  assert (hk : running k (v_tr s) = true) by (rewrite <- (k_run (n_k hinv)); exact hr).
  assert (hdeaf : forall s', Inv s' -> v_conn s' = v_conn s -> v_ni s' = v_ni s -> v_nk s' = v_nk s -> v_open s' = v_open s -> v_on s' = v_on s -> v_over s' = v_over s ->
     v_tr s' = v_tr s ++ [TIn k x] -> shared (v_tr s) (TIn k x) [] -> G s' /\ kept s s').
  { intros s' i1 i2 i3 i4 i5 i6 i7 ht hsh. split.
    - constructor.
      + constructor; auto.
        * intros j h1 h2. rewrite ht in h1, h2. apply running_in_sub in h1. rewrite ready_in in h2. rewrite i2. exact (g_reg h0 _ h1 h2).
        * rewrite ht. apply D_quiet; [apply (g_d h0)|]. intros j [hj|[]]; discriminate.
        * rewrite ht. apply Q_quiet; [apply (g_q h0)|]. intros j y [hj|[]]; discriminate.
      + rewrite ht. apply Sh_in; [apply (g_sh h)| |exact hsh]. intros j y [].
      + intros i. rewrite i5, i6, i7. apply (g_quiet h).
    - unfold kept. split; [exact i3|]. split; [exact i4|]. split; [intros j hj; rewrite ht in hj; apply running_in_sub in hj; exact hj|].
      exists [TIn k x]. auto. }
  destruct x as [a|e| |].
  - pose proof (@next_Inv A E o s k a hinv hk) as hi. change (deaf k (log s (TIn k (Nxt a)))) with (deaf k s).
    destruct (deaf k s) eqn:hd.
    { apply hdeaf; auto. apply shared_deaf; auto. exact (g_quiet h). }
    set (s' := log s (TIn k (Nxt a))) in *. set (c := v_for s' k).
    assert (ht : v_tr s' = v_tr s ++ [TIn k (Nxt a)]) by reflexivity.
    assert (hg0 : G0 s').
    { constructor; auto.
      - intros j h1 h2. rewrite ht in h1, h2. apply running_in_sub in h1. rewrite ready_in in h2. exact (g_reg h0 _ h1 h2).
      - rewrite ht. apply D_quiet; [apply (g_d h0)|]. intros j [hj|[]]; discriminate.
      - rewrite ht. apply Q_quiet; [apply (g_q h0)|]. intros j y [hj|[]]; discriminate. }
    assert (hctx : Ctx c (Nxt a) s').
    { exists (v_tr s), [], k. split; [exact ht|]. split; [reflexivity|]. split; [apply (k_sub (n_k hinv)), (@run_lt A E o s k (n_k hinv) hk)|].
      intros i h1 h2. apply members_open; auto. }
    assert (hnd : NoDup (order (length (v_tr s')) (seq 0 (v_ni s')))) by (apply Permutation_NoDup with (seq 0 (v_ni s')); [symmetry; apply ordered|apply seq_NoDup]).
    destruct (@multicast_ok c (Nxt a) _ s' hnd hg0 hctx) as (b1 & b2 & b3 & _ & b5 & u & b6 & b7 & b8).
    fold (tell_all o down order c (Nxt a) s') in *. set (s2 := tell_all o down order c (Nxt a) s') in *.
    destruct b2 as (c1 & c2 & c3 & c4 & c5).
    split.
    + constructor; [exact b1| |].
      * rewrite b6, ht, <- app_assoc. apply Sh_in; [apply (g_sh h)|apply calm_no_in; exact b7|].
        apply shared_all with c; auto. rewrite b8. apply Permutation_map. exact (@members_perm s c hinv (length (v_tr s'))).
      * intros i hio. rewrite c5, c2. apply (g_quiet h). exact (b3 _ hio).
    + unfold kept. split; [exact c1|]. split; [exact c3|].
      split. { intros j hj. apply b5 in hj. rewrite ht in hj. apply running_in_sub in hj. exact hj. }
      exists (TIn k (Nxt a) :: u). split; [rewrite b6, ht, <- app_assoc; reflexivity|]. cbn. apply calm_kept; exact b7.
  - change (deaf k (with_run (log s (TIn k (Err e))) k false)) with (deaf k s).
    destruct (deaf k s) eqn:hd.
    { apply hdeaf; auto; [apply deaf_Inv; auto|]. apply shared_deaf; auto. exact (g_quiet h). }
    destruct (o_error o) eqn:hoe.
    + refine (@finish_ok s _ k (Err e) h hk eq_refl hd _ _ _ _ _ _ _ _); try reflexivity.
      apply (@finish_Inv A E o s _ k (Err e) hinv hk eq_refl hd); try reflexivity; [cbn; rewrite hoe; reflexivity|repeat split].
    + refine (@finish_ok s _ k (Err e) h hk eq_refl hd _ _ _ _ _ _ _ _); try reflexivity.
      apply (@finish_Inv A E o s _ k (Err e) hinv hk eq_refl hd); try reflexivity; [cbn; rewrite hoe; reflexivity|repeat split].
  - change (deaf k (with_run (log s (TIn k Cmp)) k false)) with (deaf k s).
    destruct (deaf k s) eqn:hd.
    { apply hdeaf; auto; [apply deaf_Inv; auto|]. apply shared_deaf; auto. exact (g_quiet h). }
    destruct (o_complete o) eqn:hoe.
    + refine (@finish_ok s _ k Cmp h hk eq_refl hd _ _ _ _ _ _ _ _); try reflexivity.
      apply (@finish_Inv A E o s _ k Cmp hinv hk eq_refl hd); try reflexivity; [cbn; rewrite hoe; reflexivity|repeat split].
    + refine (@finish_ok s _ k Cmp h hk eq_refl hd _ _ _ _ _ _ _ _); try reflexivity.
      apply (@finish_Inv A E o s _ k Cmp hinv hk eq_refl hd); try reflexivity; [cbn; rewrite hoe; reflexivity|repeat split|apply orb_true_r].
  - assert (hi : Inv (connection_unsubscribe o k (with_run (log s (TIn k Uns)) k false))).
    { apply (@unsub_Inv A E o s k (TIn k Uns)); auto. apply good_in; exact hk. }
    apply hdeaf; auto; try exact Logic.I; unfold connection_unsubscribe; destruct (deaf _ _); try reflexivity; destruct (o_disconnect o); reflexivity.
Qed.
Lemma signals_ok : forall k (l : list call) s, G s -> G (signals o down order k l s) /\ kept s (signals o down order k l s).
Proof.
  intros k l. induction l as [|x l IH]; intros s h; cbn [signals].
  - split; [exact h|]. unfold kept. repeat split; auto. exists []. rewrite app_nil_r. auto.
  - destruct (@signal_ok k x s h) as [h1 h2]. destruct (IH _ h1) as [h3 h4]. split; [exact h3|]. exact (kept_trans h2 h4).
Qed.

(** *** The calls of the user *)
Lemma G_plus : forall s s' t, G s -> Inv s' -> v_tr s' = v_tr s ++ t ->
  (forall e, In e t -> match e with TLeave _ | TOut _ _ | TIn _ _ => False | _ => True end) ->
  Reg s' -> Quiet s' -> G s'.
Proof.
  intros s s' t h hi ht hno hr hq. constructor; [constructor|..]; auto.
  - rewrite ht. apply D_quiet; [apply h|]. intros j hj. exact (hno _ hj).
  - rewrite ht. apply Q_quiet; [apply h|]. intros j x hj. exact (hno _ hj).
  - rewrite ht. apply Sh_quiet; [apply h|]. intros j x hj. exact (hno _ hj).
Qed.
Lemma init_G : G init /\ W init.
Proof.
  split.
  - constructor; [constructor|..].
    + constructor.
      * constructor; cbn; intros; try reflexivity; try discriminate; try lia; auto; try contradiction.
        split; [congruence|]. intros (k & x & [] & _).
      * constructor; cbn; intros; try reflexivity; try contradiction; auto; [constructor|]. split; [discriminate|intros []].
      * constructor; cbn; intros.
        -- destruct H as [e [[] _]].
        -- discriminate.
        -- destruct q; discriminate.
        -- discriminate.
      * intros p e s h. destruct p; discriminate.
    + intros k h. discriminate.
    + intros p e s h. destruct p; discriminate.
    + intros p e s h. destruct p; discriminate.
    + intros p e s h. destruct p; discriminate.
    + intros i h. discriminate.
  - intros k h. discriminate.
Qed.

Lemma not_active : forall s, G s -> W s -> active s = false -> forall k, running k (v_tr s) = false.
Proof.
  intros s h w ha k. destruct (running k (v_tr s)) eqn:hk; [|reflexivity]. pose proof (g_reg (g_0 h) _ hk (w _ hk)) as hc.
  unfold active in ha. rewrite hc, (k_run (n_k (g_inv (g_0 h)))) in ha. congruence.
Qed.
Lemma active_running : forall s, G s -> active s = true -> exists k, running k (v_tr s) = true.
Proof.
  intros s h ha. unfold active in ha. destruct (v_conn s) as [k|]; [|discriminate]. exists k.
  rewrite <- (k_run (n_k (g_inv (g_0 h)))). exact ha.
Qed.
Lemma get_G : forall s, G s -> G (snd (get_connector s)).
Proof.
  intros s h. destruct (get_Inv (g_inv (g_0 h))) as (h1 & h2 & h3 & h4 & h5 & h6).
  apply (@G_plus s _ []); auto.
  - rewrite app_nil_r. exact h3.
  - intros e [].
  - intros k. rewrite h3, h6. apply (g_reg (g_0 h)).
  - intros i hi. unfold get_connector in *. destruct (v_cur s); apply (g_quiet h); exact hi.
Qed.

Lemma connect_ok : forall s, G s -> W s ->
  let s' := connect o down sync live order s in
  G s' /\ W s' /\
  (active s = true /\ s' = s \/ active s = false /\ exists t b,
     let k := v_nk s in let c := fst (get_connector s) in
     v_tr s' = v_tr s ++ TSub k c :: t ++ [TReady k b] /\ b = running k (v_tr s ++ TSub k c :: t) && live k).
Proof.
  intros s h w. cbn. unfold connect. destruct (active s) eqn:ha; [auto|].
  pose proof (not_active h w ha) as hn.
  pose proof (get_G h) as hg. destruct (get_Inv (g_inv (g_0 h))) as (h1 & h2 & h3 & h4 & h5 & h6).
  destruct (get_connector s) as [c s1] eqn:hgc. cbn [fst snd] in *.
  assert (hn1 : forall k, running k (v_tr s1) = false) by (intros; rewrite h3; apply hn).
  destruct (@sub_Inv A E o s1 c h1 h2 hn1) as [i1 i2]. set (k := v_nk s1) in *.
  set (s2 := log (with_connection s1 k c) (TSub k c)) in *.
  assert (hg2 : G s2).
  { apply (@G_plus s1 _ [TSub k c]); auto.
    - intros e [<-|[]]. exact Logic.I.
    - intros j hj1 hj2. exfalso. unfold s2 in hj2. fld. rewrite ready_snoc in hj2. cbn in hj2. rewrite orb_false_r in hj2.
      destruct (Nat.eq_dec j k) as [->|hne]; [destruct (@k_new _ _ _ _ (n_k h1) k (le_n _)); congruence|].
      assert (running j (v_tr s1) = true); [|congruence].
      unfold s2 in hj1. fld. unfold running in *. rewrite subscribed_snoc, stopped_snoc in hj1. cbn in hj1. destruct (Nat.eqb_spec k j); [congruence|]. now rewrite !orb_false_r in hj1.
    - exact (g_quiet hg). }
  destruct (@signals_ok k (sync k) s2 hg2) as [g3 (q1 & q2 & q3 & t & q4 & q5)].
  set (s3 := signals o down order k (sync k) s2) in *.
  assert (hk2 : v_nk s2 = S k) by reflexivity.
  assert (hlast : forall j, running j (v_tr s3) = true -> j = k).
  { intros j hj. pose proof (k_last (n_k (g_inv (g_0 g3))) _ hj). rewrite q2, hk2 in H. lia. }
  set (b := v_run s3 k && live k).
  assert (i3 : Inv (log (with_run s3 k b) (TReady k b))).
  { apply ready_Inv; [apply g3|rewrite q2, hk2; lia|]. intros hb. apply andb_true_iff in hb. rewrite <- (k_run (n_k (g_inv (g_0 g3)))). apply hb. }
  assert (hrun : forall j, running j (v_tr s3 ++ [TReady k b]) = true -> j = k).
  { intros j hj. rewrite running_ready in hj. apply andb_true_iff in hj. apply hlast, hj. }
  split.
  { apply (@G_plus s3 _ [TReady k b]); auto.
    - apply conn_Inv. exact i3.
    - intros e [<-|[]]. exact Logic.I.
    - intros j hj _. fld. rewrite (hrun _ hj). reflexivity.
    - exact (g_quiet g3). }
  split.
  { intros j hj. fld. rewrite (hrun _ hj), ready_snoc. cbn. rewrite Nat.eqb_refl. apply orb_true_r. }
  right. split; [reflexivity|]. exists t, b. fld. fold k. rewrite <- h4, <- h3. fold k.
  assert (htr : v_tr s3 = v_tr s1 ++ TSub k c :: t) by (rewrite q4; unfold s2; fld; rewrite <- app_assoc; reflexivity).
  split.
  - rewrite htr, <- app_assoc. reflexivity.
  - unfold b. rewrite (k_run (n_k (g_inv (g_0 g3)))), htr. reflexivity.
Qed.

Lemma W_sub : forall s s' t, W s -> v_tr s' = v_tr s ++ t ->
  (forall j, running j (v_tr s') = true -> running j (v_tr s) = true) -> W s'.
Proof.
  intros s s' t w ht hr j hj. apply hr, w in hj. rewrite ht. unfold ready in *. rewrite existsb_app, hj. reflexivity.
Qed.
Lemma end_ok : forall s k, G s -> W s -> (exists q, v_tr s = q ++ [TUser]) ->
  G (end_connection o k s) /\ W (end_connection o k s).
Proof.
  intros s k h w [q hq].
  assert (hsub : forall j, running j (v_tr (end_connection o k s)) = true -> running j (v_tr s) = true).
  { intros j hj. rewrite end_tr in hj. destruct (v_run s k); [|now rewrite app_nil_r in hj].
    rewrite (@running_stop A E j k) in hj by (try (intros; discriminate); cbn; apply orb_false_r). now apply andb_true_iff in hj. }
  split; [|apply (@W_sub s _ _ w (end_tr k s) hsub)].
  apply (@G_plus s _ (if v_run s k then [TEnd k] else [])); auto.
  - apply end_Inv; [apply h|]. intros hr. split; [rewrite <- (k_run (n_k (g_inv (g_0 h)))); exact hr|]. exists q. auto.
  - apply end_tr.
  - intros e he. destruct (v_run s k); [|destruct he]. destruct he as [<-|[]]. exact Logic.I.
  - intros j hj1 hj2. rewrite end_conn. apply (g_reg (g_0 h)); [auto|].
    rewrite end_tr in hj2. destruct (v_run s k); [|now rewrite app_nil_r in hj2]. rewrite ready_snoc in hj2. cbn in hj2. now rewrite orb_false_r in hj2.
  - intros i hi. rewrite end_open in hi. destruct (end_fixed k s) as (_ & c2 & _ & _ & c5). rewrite c2, c5. apply (g_quiet h _ hi).
Qed.
Lemma user_G : forall s, G s -> W s -> G (log s TUser) /\ W (log s TUser).
Proof.
  intros s h w. split.
  - apply (@G_plus s _ [TUser]); auto.
    + apply user_Inv, h.
    + intros e [<-|[]]. exact Logic.I.
    + intros j. fld. rewrite running_plain, ready_plain by reflexivity. apply (g_reg (g_0 h)).
    + exact (g_quiet h).
  - intros j. fld. rewrite running_plain, ready_plain by reflexivity. apply w.
Qed.
Lemma disconnect_ok : forall s, G s -> W s -> (exists q, v_tr s = q ++ [TUser]) ->
  G (disconnect o s) /\ W (disconnect o s) /\ forall j, running j (v_tr (disconnect o s)) = false.
Proof.
  intros s h w hq. unfold disconnect. pose proof (g_inv (g_0 h)) as hinv. destruct (v_conn s) as [k|] eqn:hc.
  - destruct hq as [q hq].
    assert (hall : forall j, running j (v_tr s) = true -> j = k).
    { intros j hj. pose proof (g_reg (g_0 h) _ hj (w _ hj)). congruence. }
    assert (hi : Inv (with_conn s None)) by (apply conn_Inv; exact hinv).
    assert (hnone : forall j, running j (v_tr (end_connection o k (with_conn s None))) = false) by (apply end_none; assumption).
    split; [|split; [|exact hnone]].
    + apply (@G_plus s _ (if v_run s k then [TEnd k] else [])); auto.
      * apply end_Inv; [exact hi|]. intros hr. fld. split; [fld; rewrite <- (k_run (n_k hinv)); exact hr|]. exists q. auto.
      * rewrite end_tr. reflexivity.
      * intros e he. destruct (v_run s k); [|destruct he]. destruct he as [<-|[]]. exact Logic.I.
      * intros j hj. rewrite hnone in hj. discriminate.
      * intros i hio. rewrite end_open in hio. destruct (end_fixed k (with_conn s None)) as (_ & c2 & _ & _ & c5). rewrite c2, c5. apply (g_quiet h _ hio).
    + intros j hj. rewrite hnone in hj. discriminate.
  - assert (hno : forall j, running j (v_tr s) = false).
    { intros j. destruct (running j (v_tr s)) eqn:hj; [|reflexivity]. pose proof (g_reg (g_0 h) _ hj (w _ hj)). congruence. }
    split; [|split; [exact w|exact hno]].
    apply (@G_plus s _ []); auto.
    + apply conn_Inv; exact hinv.
    + rewrite app_nil_r. reflexivity.
    + intros e [].
    + intros j hj. fld. rewrite hno in hj. discriminate.
    + exact (g_quiet h).
Qed.
Lemma subscribe_ok : forall s, G s -> W s ->
  let s' := subscribe s in
  G s' /\ W s' /\ v_nk s' = v_nk s /\ (exists e, v_tr s' = v_tr s ++ [e] /\ plainK e = true /\
    (e = TJoin (v_ni s) (fst (get_connector s')) \/ exists x, e = TOut (v_ni s) x)) /\ (forall j, running j (v_tr s') = running j (v_tr s)).
Proof.
  intros s h w. cbn. unfold subscribe. pose proof (get_G h) as hg. destruct (get_Inv (g_inv (g_0 h))) as (h1 & h2 & h3 & h4 & h5 & h6).
  destruct (get_connector s) as [c s1] eqn:hgc. cbn [fst snd] in *.
  destruct (v_over s1 c) as [x|] eqn:hv.
  - set (s' := log (with_told (with_sub s1 (v_ni s1) c false) (v_ni s1) [x]) (TOut (v_ni s1) x)).
    assert (ht : v_tr s' = v_tr s ++ [TOut (v_ni s1) x]) by (unfold s'; fld; rewrite h3; reflexivity).
    assert (hr : forall j, running j (v_tr s') = running j (v_tr s)) by (intros; rewrite ht; apply running_plain; reflexivity).
    assert (hrd : forall j, ready j (v_tr s') = ready j (v_tr s)) by (intros; rewrite ht; apply ready_plain; reflexivity).
    split; [|split; [|split; [|split]]]; auto.
    + pose proof (g_0 h) as h0. constructor; [constructor|..].
      * apply late_Inv; auto.
      * intros j. rewrite hr, hrd. unfold s'. fld. rewrite h6. apply (g_reg h0).
      * rewrite ht. apply D_quiet; [apply h0|]. intros j [hj|[]]; discriminate.
      * rewrite ht. apply answers_app; [exact Q_mono|apply h0|]. intros p e u Heq.
        destruct (split_cons _ _ _ Heq) as [[-> [-> ->]]|[p' [_ Heq']]]; [|destruct p'; discriminate].
        rewrite app_nil_r. cbn. intros hp. exfalso. apply present_joined in hp. rewrite h5 in hp.
        pose proof (i_join (n_i (g_inv h0)) _ hp). lia.
      * rewrite ht. apply Sh_quiet; [apply h|]. intros k y [hj|[]]; discriminate.
      * intros i hi. unfold s' in *. fld. unfold put in *. destruct (i =? v_ni s1); [discriminate|]. exact (g_quiet hg i hi).
    + intros j hj. rewrite hrd. rewrite hr in hj. auto.
    + exists (TOut (v_ni s1) x). split; [exact ht|]. split; [reflexivity|]. right. exists x. rewrite h5. reflexivity.
  - set (s' := log (with_count (with_sub s1 (v_ni s1) c true) (S (v_count s1))) (TJoin (v_ni s1) c)).
    assert (ht : v_tr s' = v_tr s ++ [TJoin (v_ni s1) c]) by (unfold s'; fld; rewrite h3; reflexivity).
    assert (hr : forall j, running j (v_tr s') = running j (v_tr s)) by (intros; rewrite ht; apply running_plain; reflexivity).
    assert (hrd : forall j, ready j (v_tr s') = ready j (v_tr s)) by (intros; rewrite ht; apply ready_plain; reflexivity).
    split; [|split; [|split; [|split]]]; auto.
    + apply (@G_plus s _ [TJoin (v_ni s1) c]); auto.
      * apply join_Inv; auto.
      * intros e [<-|[]]. exact Logic.I.
      * intros j. rewrite hr, hrd. unfold s'. fld. rewrite h6. apply (g_reg (g_0 h)).
      * intros i hi. unfold s' in *. fld. unfold put in *. destruct (i =? v_ni s1); [exact hv|]. exact (g_quiet hg i hi).
    + intros j hj. rewrite hrd. rewrite hr in hj. auto.
    + exists (TJoin (v_ni s1) c). split; [exact ht|]. split; [reflexivity|]. left. rewrite h5. f_equal.
      unfold get_connector. unfold s'. fld. rewrite h2. reflexivity.
Qed.

Lemma perform_ok : forall a s, G s -> W s -> G (perform o down sync live order a s) /\ W (perform o down sync live order a s).
Proof.
  intros a s h w. destruct a; cbn [perform].
  - destruct (subscribe_ok h w) as (h1 & h2 & _). auto.
  - destruct (subscribe_ok h w) as (h1 & h2 & _). destruct (connect_ok h1 h2) as (h3 & h4 & _). auto.
  - destruct (v_open s i) eqn:hi.
    + pose proof (g_0 h) as h0. destruct (@leave_ok i s (g_inv h0) (g_reg h0) (g_d h0) hi) as (a1 & a2 & a3 & a4 & a5 & a6 & t & a7 & a8).
      assert (hno : forall e, In e (TLeave i :: t) -> match e with TOut _ _ | TIn _ _ => False | _ => True end).
      { intros e [<-|he]; [exact Logic.I|]. destruct a8 as [->|[k ->]]; [destruct he|]. destruct he as [<-|[]]. exact Logic.I. }
      split; [|apply (@W_sub s _ _ w a7 a6)].
      constructor; [constructor|..]; auto.
      * rewrite a7. apply Q_quiet; [apply h0|]. intros j x hj. exact (hno _ hj).
      * rewrite a7. apply Sh_quiet; [apply h|]. intros j x hj. exact (hno _ hj).
      * intros j hj. rewrite a5 in hj. unfold put in hj. destruct (j =? i); [discriminate|]. destruct a4 as (_ & c2 & _ & _ & c5). rewrite c2, c5. apply (g_quiet h _ hj).
    + unfold leave. rewrite hi. auto.
  - destruct (connect_ok h w) as (h3 & h4 & _). auto.
  - destruct (user_G h w) as [h1 h2]. destruct (@disconnect_ok _ h1 h2) as (h3 & h4 & _); [eexists; reflexivity|auto].
  - destruct (user_G h w) as [h1 h2]. destruct (@disconnect_ok _ h1 h2) as (h3 & h4 & h5); [eexists; reflexivity|].
    set (s1 := disconnect o (log s TUser)) in *. split.
    + apply (@G_plus s1 _ [TReset]); auto.
      * apply reset_Inv; [apply h3|exact h5].
      * intros e [<-|[]]. exact Logic.I.
      * intros j hj. exfalso. fld. rewrite running_plain in hj by reflexivity. rewrite h5 in hj. discriminate.
      * exact (g_quiet h3).
    + intros j hj. exfalso. fld. rewrite running_plain in hj by reflexivity. rewrite h5 in hj. discriminate.
  - destruct (user_G h w) as [h1 h2]. apply end_ok; auto. eexists; reflexivity.
  - destruct (@signal_ok k x s h) as [h1 (q1 & q2 & q3 & t & q4 & q5)]. split; [exact h1|]. apply (@W_sub s _ _ w q4 q3).
Qed.
Notation run := (run o down sync live order).
Lemma run_snoc : forall h a, run (h ++ [a]) = perform o down sync live order a (run h).
Proof. intros h a. unfold ShareModel.run. rewrite fold_left_app. reflexivity. Qed.
Lemma run_ok : forall h, G (run h) /\ W (run h).
Proof.
  intros h. induction h as [|a h IH] using rev_ind; [exact init_G|]. rewrite run_snoc. apply perform_ok; apply IH.
Qed.

(** *** Results *)
Lemma always_imp : forall (f g : list ev -> ev -> Prop) l, (forall p e, f p e -> g p e) -> always f l -> always g l.
Proof. intros f g l h hf p e s heq. apply h. exact (hf _ _ _ heq). Qed.
Lemma run_good : forall h, always (good o) (v_tr (run h)).
Proof. intros h. apply (n_good (g_inv (g_0 (proj1 (run_ok h))))). Qed.
Lemma share_one : forall h, always (@one A E) (v_tr (run h)).
Proof. intros h. apply (always_imp (f := good o)); [|apply run_good]. intros p e g. apply g. Qed.
Lemma share_heard : forall h, always (@heard A E) (v_tr (run h)).
Proof. intros h. apply (always_imp (f := good o)); [|apply run_good]. intros p e g. apply g. Qed.
Lemma share_tells : forall h, always (tells o) (v_tr (run h)).
Proof. intros h. apply (always_imp (f := good o)); [|apply run_good]. intros p e g. apply g. Qed.
Lemma share_joins : forall h, always (@joins A E) (v_tr (run h)).
Proof. intros h. apply (always_imp (f := good o)); [|apply run_good]. intros p e g. apply g. Qed.
Lemma share_leaves : forall h, always (@leaves A E) (v_tr (run h)).
Proof. intros h. apply (always_imp (f := good o)); [|apply run_good]. intros p e g. apply g. Qed.
Lemma share_ends : forall h, always (ends o) (v_tr (run h)).
Proof. intros h. apply (always_imp (f := good o)); [|apply run_good]. intros p e g. apply g. Qed.
Lemma share_same : forall h, always (same o) (v_tr (run h)).
Proof. intros h. apply (always_imp (f := good o)); [|apply run_good]. intros p e g. apply g. Qed.
Lemma share_fresh : forall h, always (fresh o) (v_tr (run h)).
Proof. intros h. apply (always_imp (f := good o)); [|apply run_good]. intros p e g. apply g. Qed.
Lemma share_dropped : forall h, answers (dropped o) (v_tr (run h)).
Proof. intros h. apply (g_d (g_0 (proj1 (run_ok h)))). Qed.
Lemma share_quits : forall h, answers (quits down) (v_tr (run h)).
Proof. intros h. apply (g_q (g_0 (proj1 (run_ok h)))). Qed.
Lemma share_shared : forall h, answers (@shared A E) (v_tr (run h)).
Proof. intros h. apply (g_sh (proj1 (run_ok h))). Qed.
Lemma share_ready : forall h k, running k (v_tr (run h)) = true -> ready k (v_tr (run h)) = true.
Proof. intros h k. apply (proj2 (run_ok h)). Qed.
Lemma share_connect : forall h,
  let p := v_tr (run h) in let p' := v_tr (run (h ++ [AConnect])) in
  (exists k, running k p = true) /\ p' = p \/
  exists c t b, p' = p ++ TSub (subs p) c :: t ++ [TReady (subs p) b] /\ b = running (subs p) (p ++ TSub (subs p) c :: t) && live (subs p).
Proof.
  intros h. cbn. rewrite run_snoc. destruct (run_ok h) as [g w]. cbn [perform].
  destruct (connect_ok g w) as (_ & _ & [[ha heq]|[_ (t & b & h1 & h2)]]).
  - left. rewrite heq. split; [apply (active_running g ha)|reflexivity].
  - right. rewrite (k_subs (n_k (g_inv (g_0 g)))). eauto.
Qed.
Lemma share_share : forall h,
  let p := v_tr (run h) in let p' := v_tr (run (h ++ [AShare])) in
  exists i e, (e = TOut i Cmp \/ (exists y, e = TOut i (Err y)) \/ exists c, e = TJoin i c) /\
  ((exists k, running k p = true) /\ p' = p ++ [e] \/
   exists c t b, p' = p ++ e :: TSub (subs p) c :: t ++ [TReady (subs p) b] /\ b = running (subs p) (p ++ e :: TSub (subs p) c :: t) && live (subs p) /\
     (forall d, e = TJoin i d -> d = c)).
Proof.
  intros h. cbn. rewrite run_snoc. destruct (run_ok h) as [g w]. cbn [perform].
  destruct (subscribe_ok g w) as (g1 & w1 & hnk & (e & he1 & he2 & he3) & hr).
  exists (v_ni (run h)), e. split.
  { destruct he3 as [->|[x ->]]; [eauto|]. pose proof (n_good (g_inv (g_0 g1))) as hg. rewrite he1 in hg. specialize (hg _ _ [] eq_refl).
    destruct hg as (_ & _ & ht & _). cbn in ht. destruct ht as [(k & c & q & r & _ & _ & _ & hm & hp)|(_ & _ & _ & [[y [-> _]]|[-> _]])]; eauto.
    exfalso. pose proof (i_join (n_i (g_inv (g_0 g))) _ (present_joined _ _ hp)). lia. }
  destruct (connect_ok g1 w1) as (_ & _ & [[ha heq]|[_ (t & b & h1 & h2)]]).
  - left. rewrite heq. split; [|exact he1]. destruct (active_running g1 ha) as [k hk]. exists k. rewrite <- hr. exact hk.
  - right. rewrite (k_subs (n_k (g_inv (g_0 g)))). rewrite hnk, he1, <- app_assoc in h1. rewrite hnk, he1, <- app_assoc in h2. cbn [app] in h1, h2.
    eexists _, t, b. split; [exact h1|]. split; [exact h2|]. intros d hd. destruct he3 as [->|[x ->]]; [congruence|discriminate].
Qed.
Lemma share_disconnect : forall h a, a = ADisconnect \/ a = AReset -> forall k, running k (v_tr (run (h ++ [a]))) = false.
Proof.
  intros h a ha k. rewrite run_snoc. destruct (run_ok h) as [g w]. destruct (user_G g w) as [g1 w1].
  destruct (@disconnect_ok _ g1 w1) as (_ & _ & h5); [eexists; reflexivity|].
  destruct ha as [->| ->]; cbn [perform]; [apply h5|]. fld. rewrite running_plain by reflexivity. apply h5.
Qed.
End Run.
