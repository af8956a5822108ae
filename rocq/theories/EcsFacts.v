(** More about EcsModel.v: when a subscription is decided, and what a retry comes to. *)
From Coq Require Import Permutation.
From Verif Require Import Base EcsModel EcsSpec EcsProofs.
Set Implicit Arguments.

Definition ext (P : ev -> Prop) (w w' : world) : Prop := exists l, w_tr w' = w_tr w ++ l /\ Forall P l.
Definition quiet (e : ev) : Prop := match e with TGone _ | TOver _ => True | _ => False end.
Definition inner (e : ev) : Prop := match e with TDo _ => False | _ => True end.
Definition within (e : ev) : Prop := match e with TDo _ | TSpawn _ _ => False | _ => True end.

Lemma ext_refl P w : ext P w w.
Proof. exists []. rewrite app_nil_r. auto. Qed.
Lemma ext_trans P a b c : ext P a b -> ext P b c -> ext P a c.
Proof. intros (l & E & H) (m & F & G). exists (l ++ m). rewrite F, E, app_assoc. split; auto. apply Forall_app. auto. Qed.
Lemma ext_imp (P Q : ev -> Prop) a b : (forall e, P e -> Q e) -> ext P a b -> ext Q a b.
Proof. intros H (l & E & F). exists l. split; auto. eapply Forall_impl; eauto. Qed.
Lemma ext_log (P : ev -> Prop) e w w' : ext P w w' -> P e -> ext P w (log e w').
Proof. intros (l & E & H) He. exists (l ++ [e]). cbn. rewrite E, app_assoc. split; auto. apply Forall_app. auto. Qed.
Lemma ext_same P w w' : w_tr w' = w_tr w -> ext P w w'.
Proof. intros E. exists []. rewrite app_nil_r. auto. Qed.
Lemma ext_fold P (f : world -> nat -> world) : (forall w s, ext P w (f w s)) -> forall l w, ext P w (fold_left f l w).
Proof. intros H l. induction l; cbn; intros w; [apply ext_refl|]. eapply ext_trans; eauto. Qed.

Lemma ext_close s w : ext quiet w (close s w).
Proof. unfold close. destruct (w_fate w s); try apply ext_refl. exists [TOver s]. cbn. repeat constructor. Qed.
Lemma ext_despawn s w : ext quiet w (despawn s w).
Proof.
  unfold despawn. destruct (w_place w s); try apply ext_refl.
  - exists [TGone s]. cbn. repeat constructor.
  - eapply ext_trans; [|apply ext_close]. exists [TGone s]. cbn. repeat constructor.
Qed.
Lemma quiet_within e : quiet e -> within e. Proof. destruct e; cbn; auto. Qed.
Lemma within_inner e : within e -> inner e. Proof. destruct e; cbn; auto. Qed.
Lemma ext_consume s c w : ext within w (consume s c w).
Proof.
  unfold consume. destruct c.
  - eapply ext_trans; [|eapply ext_imp; [apply quiet_within|apply ext_despawn]]. exists [TSub s; TOver s]. cbn. rewrite <- app_assoc. repeat constructor.
  - assert (H : ext within w (close s (log (TLost s) (log (TSub s) (with_fate s Open w))))).
    { eapply ext_trans; [|eapply ext_imp; [apply quiet_within|apply ext_close]]. exists [TSub s; TLost s]. cbn. rewrite <- app_assoc. repeat constructor. }
    destruct (w_place _ s); auto; exists [TSub s; TPut s]; cbn; rewrite <- app_assoc; repeat constructor.
Qed.
Lemma ext_subscribe s e n w : ext within w (subscribe s e n w).
Proof.
  unfold subscribe. destruct (w_has w e).
  - destruct n; [exists [TOver s]; cbn; repeat constructor|apply ext_same; auto].
  - apply ext_consume.
Qed.
Lemma ext_retries rest : forall w, ext within w (fold_left (fun w '(s, e, n) => subscribe s e n w) rest w).
Proof.
  induction rest as [|[[s e] n] rest IH]; cbn; intros w; [apply ext_refl|]. eapply ext_trans; [apply ext_subscribe|auto].
Qed.
Lemma ext_retry_all w : ext within w (retry_all w).
Proof. unfold retry_all. eapply ext_trans; [|apply ext_retries]. apply ext_same; auto. Qed.
Lemma ext_perform a w : ext inner (log (TDo a) w) (perform a w).
Proof.
  unfold perform. cbv zeta. set (w0 := log (TDo a) w). clearbody w0. destruct a.
  - eapply ext_trans; [|eapply ext_imp; [apply within_inner|apply ext_subscribe]].
    exists [TSpawn (w_next w0) e]. cbn. repeat constructor.
  - eapply ext_imp; [|apply ext_despawn]. intros; apply within_inner, quiet_within; auto.
  - apply ext_same; auto.
  - eapply ext_imp; [|apply ext_close]. intros; apply within_inner, quiet_within; auto.
  - eapply ext_imp; [|apply ext_retry_all]. apply within_inner.
  - apply ext_fold. intros w' s. destruct (w_place w' s); try apply ext_refl. eapply ext_imp; [|apply ext_despawn]. intros; apply within_inner, quiet_within; auto.
  - eapply ext_trans; [|apply ext_fold; intros; eapply ext_imp; [|apply ext_despawn]; intros; apply within_inner, quiet_within; auto].
    apply ext_same; auto.
  - eapply ext_trans; [eapply ext_imp; [|apply ext_retry_all]; apply within_inner|].
    apply ext_fold. intros w' s. destruct (w_place w' s); try apply ext_refl. eapply ext_imp; [|apply ext_close]. intros; apply within_inner, quiet_within; auto.
Qed.
Lemma ext_clean w : ext quiet (log (TDo AClean) w) (perform AClean w).
Proof.
  unfold perform. cbv zeta. apply ext_fold. intros w' s. destruct (w_place w' s); try apply ext_refl. apply ext_despawn.
Qed.

(** Counting. *)
Lemma count_app {X} (f : X -> bool) l m : count f (l ++ m) = count f l + count f m.
Proof. unfold count. rewrite filter_app, app_length. auto. Qed.
Definition is_first (x : ev) := match x with TDo AFirst => true | _ => false end.
Definition is_clean (x : ev) := match x with TDo AClean => true | _ => false end.
Lemma firsts_app s l m : firsts s (l ++ m) = if spawned s l then firsts s l + count is_first m else firsts s m.
Proof.
  induction l as [|x l IH]; [reflexivity|]. cbn. destruct x; cbn; auto. destruct (s0 =? s); cbn; auto. apply count_app.
Qed.
Lemma cleans_app s l m : cleans s (l ++ m) = if spawned s l then cleans s l + count is_clean m else cleans s m.
Proof.
  induction l as [|x l IH]; [reflexivity|]. cbn. destruct x; cbn; auto. destruct (s0 =? s); cbn; auto. apply count_app.
Qed.
Lemma inner_count f l : (forall e, inner e -> f e = false) -> Forall inner l -> count f l = 0.
Proof. intros H F. unfold count. induction F; cbn; auto. rewrite H; auto. Qed.
Lemma inner_firsts s l : Forall inner l -> firsts s l = 0.
Proof. induction 1; cbn; auto. destruct x; cbn in *; auto. destruct (s0 =? s); auto. apply inner_count; auto. intros []; cbn; tauto. Qed.
Lemma inner_cleans s l : Forall inner l -> cleans s l = 0.
Proof. induction 1; cbn; auto. destruct x; cbn in *; auto. destruct (s0 =? s); auto. apply inner_count; auto. intros []; cbn; tauto. Qed.
Lemma has_app e l m os : has_now e (l ++ m) os = has_now e m (has_now e l os).
Proof. revert os. induction l as [|x l IH]; cbn; auto. intros os. destruct x; auto. destruct a; auto. Qed.
Lemma inner_has e l os : Forall inner l -> has_now e l os = os.
Proof. induction 1; cbn; auto. destruct x; cbn in *; auto; tauto. Qed.
Lemma made_app l m : made (l ++ m) = made l + made m.
Proof. apply count_app. Qed.
Lemma within_made l : Forall within l -> made l = 0.
Proof. unfold made, count. induction 1; cbn; auto. destruct x; cbn in *; auto; tauto. Qed.

Lemma unspawned_firsts s l : spawned s l = false -> firsts s l = 0.
Proof. induction l as [|x l IH]; cbn; auto. destruct x; cbn; auto. destruct (s0 =? s); cbn; auto. discriminate. Qed.

(** The state that is not in the invariant: the observables and the commands that wait. *)
Record more (w : world) : Prop := mkMore {
  m_has : forall e, w_has w e = has_now e (w_tr w) [];
  m_next : w_next w = made (w_tr w);
  m_retry : forall s e n, In (s, e, n) (w_retry w) -> n + firsts s (w_tr w) <= 2 /\ In (TSpawn s e) (w_tr w)
}.
Lemma close_rest s w : w_has (close s w) = w_has w /\ w_next (close s w) = w_next w.
Proof. unfold close. destruct (w_fate w s); auto. Qed.
Lemma despawn_rest s w : w_has (despawn s w) = w_has w /\ w_next (despawn s w) = w_next w.
Proof. unfold despawn. destruct (w_place w s); auto. apply (close_rest s (log (TGone s) (with_place s Despawned w))). Qed.
Lemma consume_rest s c w : w_has (consume s c w) = w_has w /\ w_next (consume s c w) = w_next w.
Proof.
  unfold consume. destruct c.
  - apply (despawn_rest s (log (TOver s) (with_fate s Over (log (TSub s) (with_fate s Open w))))).
  - pose proof (close_rest s (log (TLost s) (log (TSub s) (with_fate s Open w)))) as H. destruct (w_place _ s); auto.
Qed.
Lemma subscribe_rest s e n w : w_has (subscribe s e n w) = w_has w /\ w_next (subscribe s e n w) = w_next w.
Proof. unfold subscribe. destruct (w_has w e); [destruct n; auto|apply consume_rest]. Qed.
Lemma retries_rest rest : forall w, let w' := fold_left (fun w '(s, e, n) => subscribe s e n w) rest w in w_has w' = w_has w /\ w_next w' = w_next w.
Proof.
  induction rest as [|[[s e] n] rest IH]; cbn; auto. intros w. destruct (IH (subscribe s e n w)), (subscribe_rest s e n w). split; congruence.
Qed.
Lemma fold_rest (f : world -> nat -> world) :
  (forall w s, w_has (f w s) = w_has w /\ w_next (f w s) = w_next w) -> forall l w, w_has (fold_left f l w) = w_has w /\ w_next (fold_left f l w) = w_next w.
Proof. intros H l. induction l as [|x l IH]; cbn; auto. intros w. destruct (IH (f w x)), (H w x). split; congruence. Qed.

Lemma spawned_in s e l : In (TSpawn s e) l -> spawned s l = true.
Proof. intros H. apply existsb_exists. exists (TSpawn s e). rewrite Nat.eqb_refl. auto. Qed.

(** A trace that is longer by events of one action. *)
Lemma more_ext w w' : more w -> ext within w w' -> w_has w' = w_has w -> w_next w' = w_next w -> w_retry w' = w_retry w -> more w'.
Proof.
  intros [M1 M2 M3] (l & E & F) H1 H2 H3. assert (Fi : Forall inner l) by (eapply Forall_impl; [|exact F]; apply within_inner).
  split.
  - intros e. rewrite H1, E, has_app, (inner_has e _ Fi). auto.
  - rewrite H2, E, made_app, (within_made F). lia.
  - intros s e n. rewrite H3. intros Hi. destruct (M3 s e n Hi) as [A B]. rewrite E, firsts_app, (spawned_in _ _ _ B). split; [|apply in_app_iff; auto].
    rewrite inner_count; auto; [lia|]. intros []; cbn; tauto.
Qed.

Lemma subscribe_retries s e n w :
  w_retry (subscribe s e n w) = w_retry w \/ exists m, n = S m /\ w_retry (subscribe s e n w) = w_retry w ++ [(s, e, m)].
Proof. unfold subscribe. destruct (w_has w e); [destruct n; eauto|left; apply consume_retry]. Qed.

Lemma more_subscribe s e n w : more w -> n + firsts s (w_tr w) <= 3 -> In (TSpawn s e) (w_tr w) -> more (subscribe s e n w).
Proof.
  intros M H1 H2. destruct (ext_subscribe s e n w) as (l & E & F). assert (Fi : Forall inner l) by (eapply Forall_impl; [|exact F]; apply within_inner).
  destruct (subscribe_rest s e n w) as [R1 R2]. destruct M as [M1 M2 M3]. split.
  - intros i. rewrite R1, E, has_app, (inner_has i _ Fi). auto.
  - rewrite R2, E, made_app, (within_made F). lia.
  - assert (K : forall i j m k, m + firsts i (w_tr w) <= k /\ In (TSpawn i j) (w_tr w) -> m + firsts i (w_tr (subscribe s e n w)) <= k /\ In (TSpawn i j) (w_tr (subscribe s e n w))).
    { intros i j m k [A B]. rewrite E, firsts_app, (spawned_in _ _ _ B). split; [|apply in_app_iff; auto].
      rewrite inner_count; auto; [lia|]. intros []; cbn; tauto. }
    intros i j m Hi. apply K. destruct (subscribe_retries s e n w) as [Er|(m' & -> & Er)]; rewrite Er in Hi; auto.
    apply in_app_iff in Hi. destruct Hi as [Hi|[Hi|[]]]; auto. inversion Hi; subst. split; auto. lia.
Qed.
Lemma more_retries rest : forall w, more w -> (forall s e n, In (s, e, n) rest -> n + firsts s (w_tr w) <= 3 /\ In (TSpawn s e) (w_tr w)) ->
  more (fold_left (fun w '(s, e, n) => subscribe s e n w) rest w).
Proof.
  induction rest as [|[[s e] n] rest IH]; cbn; auto. intros w M H. apply IH.
  - destruct (H s e n); auto. apply more_subscribe; auto.
  - intros i j m Hi. destruct (H i j m (or_intror Hi)) as [A B]. destruct (ext_subscribe s e n w) as (l & E & F).
    rewrite E, firsts_app, (spawned_in _ _ _ B). split; [|apply in_app_iff; auto].
    rewrite inner_count; [lia| |eapply Forall_impl; [|exact F]; apply within_inner]. intros []; cbn; tauto.
Qed.

Lemma more_fold (f : world -> nat -> world) :
  (forall w s, more w -> more (f w s)) -> forall l w, more w -> more (fold_left f l w).
Proof. intros H l. induction l; cbn; auto. Qed.
Lemma more_despawn s w : more w -> more (despawn s w).
Proof.
  intros M. destruct (despawn_rest s w). eapply more_ext; eauto; [|apply despawn_retry].
  eapply ext_imp; [apply quiet_within|apply ext_despawn].
Qed.
Lemma more_close s w : more w -> more (close s w).
Proof.
  intros M. destruct (close_rest s w). eapply more_ext; eauto; [|apply close_retry].
  eapply ext_imp; [apply quiet_within|apply ext_close].
Qed.

Lemma more_do a w : more w -> (forall e os, a <> AHas e os) -> a <> AFirst -> more (log (TDo a) w).
Proof.
  intros [M1 M2 M3] N1 N2. split; cbn [log w_has w_tr w_next w_retry].
  - intros e. rewrite has_app, M1. cbn. destruct a; auto. congruence.
  - rewrite made_app, M2. cbn. lia.
  - intros s e n Hi. destruct (M3 s e n Hi) as [A B]. rewrite firsts_app, (spawned_in _ _ _ B). split; [|apply in_app_iff; auto].
    cbn. destruct a; cbn; try lia. congruence.
Qed.

Lemma more_spawn e w : sound w -> more w ->
  let s := w_next w in more (log (TSpawn s e) (with_fate s Waiting (with_place s Reserved (with_next (S s) w)))).
Proof.
  intros I [M1 M2 M3]. cbv zeta. split; cbn [log with_fate with_place with_next w_has w_tr w_next w_retry].
  - intros i. rewrite has_app, M1. auto.
  - rewrite made_app, M2. cbn. lia.
  - intros s i n Hi. destruct (M3 s i n Hi) as [A B]. rewrite firsts_app, (spawned_in _ _ _ B). split; [|apply in_app_iff; auto].
    cbn. lia.
Qed.
Lemma sound_do a w : sound w -> sound (log (TDo a) w).
Proof. intros I. apply inv_do with (a := a) in I. exact I. Qed.
Lemma more_perform a w : sound w -> more w -> more (perform a w).
Proof.
  intros I M. unfold perform. cbv zeta. destruct a.
  - apply more_do with (a := ASubscribe e) in M; try discriminate. apply sound_do with (a := ASubscribe e) in I.
    set (w0 := log (TDo (ASubscribe e)) w) in *. clearbody w0.
    apply more_subscribe.
    + apply more_spawn; auto.
    + cbn [log with_fate with_place with_next w_tr]. rewrite firsts_app. rewrite (v_next I), Nat.ltb_irrefl. cbn. rewrite Nat.eqb_refl. cbn. unfold max_retries. lia.
    + cbn. apply in_app_iff. cbn. auto.
  - apply more_despawn. apply more_do; auto; discriminate.
  - destruct M as [M1 M2 M3]. split; cbn [log with_has w_has w_tr w_next w_retry].
    + intros i. rewrite has_app. cbn. unfold upd. rewrite (Nat.eqb_sym i e). destruct (e =? i); auto.
    + rewrite made_app, M2. cbn. lia.
    + intros s i n Hi. destruct (M3 s i n Hi) as [A B]. rewrite firsts_app, (spawned_in _ _ _ B). split; [|apply in_app_iff; auto]. cbn. lia.
  - apply more_close. apply more_do; auto; discriminate.
  - destruct M as [M1 M2 M3]. unfold retry_all. apply more_retries.
    + split; cbn [log with_retry w_has w_tr w_next w_retry]; try (cbn; tauto).
      * intros i. rewrite has_app, M1. auto.
      * rewrite made_app, M2. cbn. lia.
    + cbn [log with_retry w_tr w_retry]. intros s e n Hi. destruct (M3 s e n Hi) as [A B]. rewrite firsts_app, (spawned_in _ _ _ B). split; [|apply in_app_iff; auto]. cbn. lia.
  - apply more_fold; [|apply more_do; auto; discriminate]. intros w' s M'. destruct (w_place w' s); auto. apply more_despawn; auto.
  - apply more_fold. { intros w' s M'. apply more_despawn; auto. } apply more_do with (a := ATick) in M; try discriminate. destruct M; split; auto.
  - apply more_fold. { intros w' s M'. destruct (w_place w' s); auto. apply more_close; auto. }
    apply more_do with (a := AExit) in M; try discriminate. set (w0 := log (TDo AExit) w) in *. clearbody w0.
    unfold retry_all. apply more_retries.
    + destruct M as [M1 M2 M3]. split; auto. cbn. tauto.
    + intros s e n Hi. destruct (m_retry M s e n Hi). cbn. split; auto; lia.
Qed.
Lemma more_run h : more (run h init).
Proof.
  induction h as [|a h IH] using rev_ind.
  - split; cbn; auto; tauto.
  - rewrite run_app. apply more_perform; auto. apply sound_run.
Qed.

Lemma ecs_decided h : decided (w_tr (run h init)).
Proof.
  intros s H1 H2. pose proof (sound_run h) as I. pose proof (more_run h) as M. set (w := run h init) in *. clearbody w.
  destruct (subscribed s (w_tr w)) eqn:A; auto. destruct (over s (w_tr w)) eqn:B; auto. exfalso.
  assert (Hf : w_fate w s = Waiting) by (rewrite (v_fate I); unfold fate_of; rewrite A, B, H1; auto).
  apply (v_pend I) in Hf. apply in_map_iff in Hf. destruct Hf as ([[s' e] n] & E & Hi). cbn in E. subst s'.
  destruct (m_retry M s e n Hi). lia.
Qed.

(** What a subscribe command does at once. *)
Lemma ecs_at_once h e :
  let l := w_tr (run h init) in
  w_tr (run (h ++ [ASubscribe e]) init) = l ++ TDo (ASubscribe e) :: TSpawn (made l) e :: at_once (made l) (has_now e l []).
Proof.
  cbv zeta. rewrite run_app. cbn [run fold_left]. pose proof (more_run h) as M. set (w := run h init) in *. clearbody w.
  rewrite <- (m_has M), <- (m_next M). clear M. unfold perform, subscribe. cbv zeta. cbn [log with_fate with_place with_next w_has w_next].
  destruct (w_has w e) as [|[] os]; cbn [at_once].
  - cbn. rewrite <- app_assoc. auto.
  - unfold consume. cbn. unfold despawn. cbn. rewrite upd_same. cbn. rewrite <- !app_assoc. auto.
  - unfold consume. cbn. rewrite upd_same. cbn. rewrite <- !app_assoc. auto.
Qed.

(** In which frame it is attached. *)
Definition cleaned (w : world) : Prop := forall s, 0 < cleans s (w_tr w) -> w_place w s <> Reserved.
Lemma unspawned_cleans s l : spawned s l = false -> cleans s l = 0.
Proof. induction l as [|x l IH]; cbn; auto. destruct x; cbn; auto. destruct (s0 =? s); cbn; auto. discriminate. Qed.

Lemma perform_trace a w : exists l, w_tr (perform a w) = w_tr w ++ TDo a :: l /\ Forall inner l /\ (a = AClean -> Forall quiet l).
Proof.
  destruct (ext_perform a w) as (l & E & F). exists l. cbn [log w_tr] in E. rewrite E, <- app_assoc. split; [reflexivity|]. split; auto.
  intros ->. destruct (ext_clean w) as (m & E' & F'). cbn [log w_tr] in E'. rewrite E in E'. apply app_inv_head in E'. subst; auto.
Qed.
Lemma always_app good l m : always good l -> (forall p e s, m = p ++ e :: s -> good (l ++ p) e) -> always good (l ++ m).
Proof.
  intros H1 H2. revert H2. induction m as [|x m IH] using rev_ind; intros H2.
  - rewrite app_nil_r. auto.
  - rewrite app_assoc. apply always_snoc.
    + apply IH. intros p e s ->. apply (H2 p e (s ++ [x])). rewrite <- app_assoc. auto.
    + apply (H2 m x []). auto.
Qed.
Lemma place_le l m s : place_of (l ++ m) s = Reserved -> gone s l = false /\ attached s l = false.
Proof.
  intros H. pose proof (place_cases (l ++ m) s) as C. rewrite H in C. destruct C as (A & B & _). trc.
  apply orb_false_iff in A, B. tauto.
Qed.
Lemma cleans_step s l a m : a <> AClean -> Forall inner m -> cleans s (l ++ TDo a :: m) = cleans s l.
Proof.
  intros N F. rewrite cleans_app. destruct (spawned s l) eqn:E.
  - replace (TDo a :: m) with ([TDo a] ++ m) by auto. rewrite count_app, (@inner_count is_clean m) by (auto; intros []; cbn; tauto).
    destruct a; cbn; try lia. congruence.
  - cbn. rewrite inner_cleans; auto. symmetry. apply unspawned_cleans; auto.
Qed.

Lemma cleaned_run h : cleaned (run h init) /\ always same_frame (w_tr (run h init)).
Proof.
  induction h as [|a h [IH1 IH2]] using rev_ind.
  - split; [intros s; cbn; lia|apply always_nil].
  - pose proof (sound_run (h ++ [a])) as S. pose proof (ecs_clean h) as C. rewrite run_app in *. cbn [run fold_left] in *.
    pose proof (sound_run h) as I. set (w := run h init) in *. clearbody w.
    destruct (perform_trace a w) as (l & E & F & G).
    assert (D : a = AClean \/ a <> AClean) by (destruct a; auto; right; discriminate).
    destruct D as [->|N].
    + split.
      * intros s Hs Hp. rewrite (v_place S) in Hp.
        pose proof (place_cases (w_tr (perform AClean w)) s) as P. rewrite Hp in P. destruct P as (P1 & P2 & P3). pose proof (C s P3 P1). congruence.
      * rewrite E. apply always_app; auto. intros p e s Hp. destruct p as [|x p]; inversion Hp; subst; cbn; auto.
        specialize (G eq_refl). apply Forall_app in G. destruct G as [_ G]. inversion G; subst. destruct e; cbn in *; tauto.
    + split.
      * intros s Hs Hp. rewrite (v_place S), E in Hp. rewrite E, cleans_step in Hs by auto.
        destruct (place_le _ _ _ Hp) as [A B]. apply (IH1 s Hs). rewrite (v_place I). unfold place_of. rewrite A, B.
        destruct (spawned s (w_tr w)) eqn:Sp; auto. apply unspawned_cleans in Sp. lia.
      * pose proof (v_good S) as O. rewrite E in *. apply always_app; auto. intros p e s Hp.
        assert (Ho : orderly (w_tr w ++ p) e). { apply (O (w_tr w ++ p) e s). rewrite <- app_assoc, Hp. auto. }
        destruct e; cbn; auto. cbn in Ho. destruct Ho as (_ & Ho1 & _ & Ho2).
        destruct p as [|x p]; [inversion Hp|]. inversion Hp; subst x l. apply Forall_app in F. destruct F as [F _].
        rewrite cleans_step by auto. destruct (cleans s0 (w_tr w)) eqn:Cl; auto. exfalso. apply (IH1 s0); [lia|].
        rewrite (v_place I). unfold place_of. trc. apply orb_false_iff in Ho1, Ho2. destruct Ho1 as [-> _], Ho2 as [-> _].
        destruct (existsb _ (w_tr w)) eqn:Sp; auto. fold (spawned s0 (w_tr w)) in Sp. apply unspawned_cleans in Sp. lia.
Qed.
Lemma ecs_same_frame h : always same_frame (w_tr (run h init)).
Proof. apply cleaned_run. Qed.

(** What a retry comes to. *)
Lemma subscribed_log s l e : subscribed s (l ++ [e]) = subscribed s l || match e with TSub i => i =? s | _ => false end.
Proof. trc. auto. Qed.
Lemma consume_open s w e n pend : inv None ((s, e, n) :: pend) w -> 
  let l := w_tr (consume s false w) in
  subscribed s l = true /\ attached s l = negb (gone s (w_tr w)) /\ lost s l = gone s (w_tr w) || lost s (w_tr w).
Proof.
  intros I. assert (Hw : w_fate w s = Waiting) by (apply (v_pend I); cbn; auto).
  destruct (waiting s I Hw) as [Ha Hp]. cbv zeta. unfold consume. cbn [log with_fate w_place].
  pose proof (place_cases (w_tr w) s) as P. rewrite <- (v_place I) in P.
  destruct Hp as [E|E]; rewrite E in *.
  - destruct P as (P1 & _ & _). rewrite P1. cbn [log with_place with_fate w_tr]. trc. rewrite Nat.eqb_refl, ?orb_true_r, ?orb_false_r. auto.
  - rewrite P. unfold close. cbn [log with_fate w_fate]. rewrite upd_same. cbn [log with_work with_fate w_tr]. trc.
    rewrite Nat.eqb_refl, ?orb_true_r, ?orb_false_r, Ha. auto.
Qed.
Lemma consume_closed s w e n pend : inv None ((s, e, n) :: pend) w ->
  let l := w_tr (consume s true w) in subscribed s l = true /\ over s l = true /\ gone s l = true.
Proof.
  intros I. assert (Hw : w_fate w s = Waiting) by (apply (v_pend I); cbn; auto).
  destruct (waiting s I Hw) as [Ha Hp]. cbv zeta. unfold consume, despawn. cbn [log with_fate w_place].
  pose proof (place_cases (w_tr w) s) as P. rewrite <- (v_place I) in P.
  destruct Hp as [E|E]; rewrite E in *; cbn [log with_place with_fate w_tr].
  - trc. rewrite Nat.eqb_refl, ?orb_true_r, ?orb_false_r. auto.
  - trc. rewrite Nat.eqb_refl, ?orb_true_r, ?orb_false_r. auto.
Qed.

(** Events about another subscription. *)
Definition besides (s : nat) (e : ev) : Prop :=
  match e with TDo _ => True | TSpawn i _ | TSub i | TPut i | TLost i | TOver i | TGone i => i <> s end.
Lemma besides_same s l m : Forall (besides s) m ->
  subscribed s (l ++ m) = subscribed s l /\ attached s (l ++ m) = attached s l /\ lost s (l ++ m) = lost s l /\ over s (l ++ m) = over s l /\ gone s (l ++ m) = gone s l.
Proof.
  intros F. unfold subscribed, attached, lost, over, gone. rewrite !existsb_app.
  assert (K : forall f, (forall e, besides s e -> f e = false) -> existsb f m = false).
  { intros f Hf. induction F; cbn; auto. rewrite Hf; auto. }
  rewrite !K, !orb_false_r; auto; intros [] Hb; cbn in *; auto; apply Nat.eqb_neq; auto.
Qed.
Lemma about_close s i w : i <> s -> ext (besides s) w (close i w).
Proof. intros N. unfold close. destruct (w_fate w i); try apply ext_refl. exists [TOver i]. cbn. repeat constructor. auto. Qed.
Lemma about_despawn s i w : i <> s -> ext (besides s) w (despawn i w).
Proof.
  intros N. unfold despawn. destruct (w_place w i); try apply ext_refl.
  - exists [TGone i]. cbn. repeat constructor. auto.
  - eapply ext_trans; [|apply about_close; auto]. exists [TGone i]. cbn. repeat constructor. auto.
Qed.
Lemma about_subscribe s i e n w : i <> s -> ext (besides s) w (subscribe i e n w).
Proof.
  intros N. unfold subscribe. destruct (w_has w e) as [|c os].
  - destruct n; [exists [TOver i]; cbn; repeat constructor; auto|apply ext_same; auto].
  - unfold consume. destruct c.
    + eapply ext_trans; [|apply about_despawn; auto]. exists [TSub i; TOver i]. cbn. rewrite <- app_assoc. repeat constructor; auto.
    + assert (H : ext (besides s) w (close i (log (TLost i) (log (TSub i) (with_fate i Open w))))).
      { eapply ext_trans; [|apply about_close; auto]. exists [TSub i; TLost i]. cbn. rewrite <- app_assoc. repeat constructor; auto. }
      destruct (w_place _ i); auto; exists [TSub i; TPut i]; cbn; rewrite <- app_assoc; repeat constructor; auto.
Qed.
Lemma about_retries s rest : ~ In s (ids rest) -> forall w, ext (besides s) w (fold_left (fun w '(s, e, n) => subscribe s e n w) rest w).
Proof.
  induction rest as [|[[i e] n] rest IH]; intros N w; cbn [fold_left]; [apply ext_refl|].
  assert (H : i <> s /\ ~ In s (ids rest)) by (unfold ids in *; cbn in N; tauto). destruct H.
  eapply ext_trans; [apply (about_subscribe e n w H)|]. apply IH. auto.
Qed.
Lemma spawned_once s e e' l : always orderly l -> In (TSpawn s e) l -> In (TSpawn s e') l -> e = e'.
Proof.
  induction l as [|x l IH] using rev_ind; intros O H1 H2; [destruct H1|].
  assert (Ol : always orderly l). { intros p y q ->. apply (O p y (q ++ [x])). rewrite <- app_assoc. auto. }
  pose proof (O l x [] eq_refl) as Ox. apply in_app_iff in H1, H2.
  destruct H1 as [H1|[->|[]]], H2 as [H2|[H2|[]]]; auto.
  - subst x. cbn in Ox. apply spawned_in in H1. congruence.
  - cbn in Ox. apply spawned_in in H2. congruence.
  - inversion H2. auto.
Qed.

Lemma inv_retries_some rest : forall more w, inv None (rest ++ more ++ w_retry w) w ->
  let w' := fold_left (fun w '(s, e, n) => subscribe s e n w) rest w in inv None (more ++ w_retry w') w'.
Proof.
  induction rest as [|[[s e] n] rest IH]; cbn; auto. intros more w I. apply IH. rewrite app_assoc. apply inv_subscribe. rewrite <- app_assoc. auto.
Qed.

(** After the First schedule, of a subscription that waited for an observable there is now. *)
Lemma first_step h s e : let l := w_tr (run h init) in let l' := w_tr (run (h ++ [AFirst]) init) in
  In (TSpawn s e) l -> subscribed s l = false -> over s l = false ->
  forall c os, has_now e l [] = c :: os ->
  exists w n pend, inv None ((s, e, n) :: pend) w /\ (gone s (w_tr w) = gone s l /\ lost s (w_tr w) = lost s l) /\
  exists m, Forall (besides s) m /\ l' = w_tr (consume s c w) ++ m.
Proof.
  cbv zeta. rewrite run_app. cbn [run fold_left]. intros H1 H2 H3 c os H4. pose proof (sound_run h) as I. pose proof (more_run h) as M.
  set (w := run h init) in *. clearbody w.
  assert (Hf : w_fate w s = Waiting). { rewrite (v_fate I). unfold fate_of. rewrite H3, H2, (spawned_in _ _ _ H1). auto. }
  apply (v_pend I) in Hf. apply in_map_iff in Hf. destruct Hf as ([[s' e'] n] & E & Hi). cbn in E. subst s'.
  assert (e' = e) by (eapply spawned_once; [apply (v_good I)|apply (m_retry M _ _ _ Hi)|auto]). subst e'.
  apply in_split in Hi. destruct Hi as (a & b & Hr).
  pose proof (v_nodup I) as Nd. rewrite Hr in Nd. rewrite map_app in Nd. cbn in Nd. apply NoDup_remove_2 in Nd. rewrite in_app_iff in Nd.
  unfold perform. cbv zeta. apply sound_do with (a := AFirst) in I. unfold retry_all. set (w0 := with_retry [] (log (TDo AFirst) w)).
  replace (w_retry (log (TDo AFirst) w)) with (a ++ (s, e, n) :: b) by auto.
  rewrite fold_left_app. cbn [fold_left].
  assert (I0 : inv None (a ++ ((s, e, n) :: b) ++ w_retry w0) w0).
  { unfold w0. cbn [with_retry w_retry]. rewrite app_nil_r, <- Hr. apply inv_with_retry. exact I. }
  apply inv_retries_some in I0. cbv zeta in I0.
  destruct (about_retries s a (fun H => Nd (or_introl H)) w0) as (m & Em & Fm).
  destruct (retries_rest a w0) as [R _]. cbv zeta in R.
  set (w1 := fold_left _ a w0) in *. exists w1, n, (b ++ w_retry w1). split; [exact I0|]. split.
  { rewrite Em. unfold w0. cbn [with_retry log w_tr]. rewrite <- app_assoc. destruct (@besides_same s (w_tr w) ([TDo AFirst] ++ m)) as (_ & _ & -> & _ & ->); auto.
    cbn. constructor; cbn; auto. }
  destruct (about_retries s b (fun H => Nd (or_intror H)) (subscribe s e n w1)) as (m' & Em' & Fm'). exists m'. split; auto.
  rewrite Em'. f_equal. unfold subscribe. rewrite R. unfold w0. cbn [with_retry log w_has]. rewrite (m_has M), H4. auto.
Qed.
Lemma ecs_retried h s e os : let l := w_tr (run h init) in let l' := w_tr (run (h ++ [AFirst]) init) in
  In (TSpawn s e) l -> subscribed s l = false -> over s l = false -> has_now e l [] = false :: os ->
  subscribed s l' = true /\ attached s l' = negb (gone s l) /\ lost s l' = gone s l || lost s l.
Proof.
  cbv zeta. intros H1 H2 H3 H4. destruct (first_step h s e H1 H2 H3 H4) as (w & n & pend & I & (G1 & G2) & m & F & ->).
  destruct (besides_same (w_tr (consume s false w)) F) as (-> & -> & -> & _ & _). rewrite <- G1, <- G2. apply consume_open with e n pend. auto.
Qed.
Lemma ecs_retried_closed h s e os : let l := w_tr (run h init) in let l' := w_tr (run (h ++ [AFirst]) init) in
  In (TSpawn s e) l -> subscribed s l = false -> over s l = false -> has_now e l [] = true :: os ->
  subscribed s l' = true /\ over s l' = true /\ gone s l' = true.
Proof.
  cbv zeta. intros H1 H2 H3 H4. destruct (first_step h s e H1 H2 H3 H4) as (w & n & pend & I & _ & m & F & ->).
  destruct (besides_same (w_tr (consume s true w)) F) as (-> & _ & _ & -> & ->). apply consume_closed with e n pend. auto.
Qed.

(** The end of the application. *)
Lemma ecs_exit h s : let l := w_tr (run (h ++ [AExit]) init) in subscribed s l = true -> over s l = true.
Proof.
  cbv zeta. pose proof (sound_run (h ++ [AExit])) as S. rewrite run_app in *. cbn [run fold_left] in *.
  pose proof (sound_run h) as I. set (w := run h init) in *. clearbody w.
  intros H1. destruct (over s (w_tr (perform AExit w))) eqn:H2; auto. exfalso.
  assert (Hf : w_fate (perform AExit w) s = Open). { rewrite (v_fate S). unfold fate_of. rewrite H2, H1. auto. }
  assert (Hn : s < w_next (perform AExit w)). { apply Nat.ltb_lt. rewrite <- (v_next S). apply (v_spawned S). auto. }
  clear H1 H2 S. revert Hf Hn. unfold perform. cbv zeta. apply sound_do with (a := AExit) in I.
  apply inv_retry_all in I. set (w1 := retry_all (log (TDo AExit) w)) in *. clearbody w1. unfold subscriptions.
  set (f := fun (w : world) (s : nat) => match w_place w s with Held => close s w | _ => w end).
  assert (Hk : forall l w, w_next (fold_left f l w) = w_next w).
  { apply fold_rest. intros w' i. unfold f. destruct (w_place w' i); auto. apply close_rest. }
  assert (Hs : forall w i, w_fate w s <> Open -> w_fate (f w i) s <> Open).
  { intros w' i Hx. unfold f, close. destruct (w_place w' i); auto. destruct (w_fate w' i) eqn:E; auto. cbn. unfold upd. destruct (s =? i); auto. discriminate. }
  assert (Hl : forall l w, w_fate w s <> Open -> w_fate (fold_left f l w) s <> Open).
  { intros l. induction l; cbn; auto. }
  assert (Hi : forall p w i, inv None p w -> inv None p (f w i)).
  { intros p w' i I'. unfold f. destruct (w_place w' i); auto. eapply inv_close; eauto. }
  assert (Hm : forall p l w, In s l -> inv None p w -> w_fate (fold_left f l w) s <> Open).
  { intros p l. induction l as [|i l IH]; cbn; [tauto|]. intros w' [->|Hx] I'; [|apply IH; auto].
    apply Hl. unfold f. destruct (w_place w' s) eqn:E; try (intros Hf; destruct (v_open I' s Hf); congruence).
    unfold close. destruct (w_fate w' s) eqn:F; cbn; try congruence. rewrite upd_same. discriminate. }
  rewrite Hk. intros Hf Hn. revert Hf. eapply Hm; eauto. apply in_seq. lia.
Qed.
