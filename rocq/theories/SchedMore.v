(** Histories of the executor: what happens to tasks. *)
From Verif Require Import Base SchedModel SchedSpec SchedProofs SchedExec.
Set Implicit Arguments.

Lemma in_works_ticked id l : In id (works l) <-> 0 < ticked id l.
Proof. rewrite ticked_works. apply count_occ_In. Qed.
Lemma notin_ticked id l : ~ In id (works l) <-> ticked id l = 0.
Proof. rewrite ticked_works. apply count_occ_not_In. Qed.
Lemma ticked_le id l : increasing (works l) -> ticked id l <= 1.
Proof.
  intros H. rewrite ticked_works. apply increasing_nodup in H.
  apply (proj1 (NoDup_count_occ Nat.eq_dec (works l)) H).
Qed.
Lemma ran_tidy id q : tidy q -> ~ In id (works q) -> ran id q = 0.
Proof.
  intros T N. unfold ran. destruct (filter _ q) as [|e l] eqn:F; auto. exfalso.
  assert (H : In e (e :: l)) by (left; auto). rewrite <- F in H. apply filter_In in H.
  destruct H as [H E]. destruct e as [| | | | | | |[j|]|]; try discriminate. apply Nat.eqb_eq in E; subst.
  apply in_split in H. destruct H as (a & b & ->). apply N. rewrite works_app. apply in_or_app. left.
  eapply (T id a b); eauto.
Qed.
Lemma runs_from_none id : forall l n, ran id l = 0 -> runs_from n id l = [].
Proof. intros l n H. rewrite (ran_runs_from l n) in H. destruct (runs_from n id l); auto; discriminate. Qed.
Lemma runs_from_le id : forall l n T, In T (runs_from n id l) -> T <= now_from n l.
Proof.
  induction l as [|e l IH]; intros n T H; simpl in H; [tauto|].
  destruct e as [| | | | | | |[j|]|]; simpl; auto.
  destruct (j =? id); auto. destruct H as [<-|H]; auto. apply now_from_ge.
Qed.
Lemma runs_seg id t : forall q n, Forall (seg t) q -> runs_from n id q = repeat n (ran id q).
Proof.
  unfold ran. induction q as [|e q IH]; intros n H; simpl; auto. inversion H as [|? ? S F]; subst.
  destruct S as [S|[(o & ->)|[(j & ->)|(j & ->)]]]; auto.
  - destruct e; simpl in S; try tauto; auto.
  - destruct o as [j|]; auto. destruct (j =? id); simpl; auto. f_equal; auto.
Qed.
Lemma ticks_seg id t : forall q n, Forall (seg t) q -> ticks_from n id q = repeat n (ticked id q).
Proof.
  unfold ticked. induction q as [|e q IH]; intros n H; simpl; auto. inversion H as [|? ? S F]; subst.
  destruct S as [S|[(o & ->)|[(j & ->)|(j & ->)]]]; auto.
  - destruct e; simpl in S; try tauto; auto.
  - destruct (j =? id); simpl; auto. f_equal; auto.
Qed.
Lemma seg_notick t q u : Forall (seg t) q -> ~ In (ETick u) q.
Proof.
  intros F H. rewrite Forall_forall in F. destruct (F _ H) as [X|[(o & X)|[(j & X)|(j & X)]]]; try discriminate.
  destruct X.
Qed.

Section More.
Context {K G : Type}.
Variable run : K -> nat -> G -> K * bool * G * list (req K).
Notation mach := (mach K G).

Definition time_of (m : mach) (a : act K G) : nat :=
  match a with HTick d => m_now m + d | HTickTo t => t | HDo _ _ => 0 end.

Lemma tick_step fuel (m m' : mach) a : Bd m -> is_tick a -> step run fuel m a = Fine m' ->
  ticks_well (time_of m a) m m'.
Proof.
  intros B T H. destruct a; simpl in T, H; [tauto| |]; apply tick_to_ok in H; auto.
Qed.

Lemma not_live_done (m : mach) id : Bd m -> In (EDone id) (m_log m) -> ~ live id (m_log m).
Proof.
  intros B D L. apply (i_live (g_inv (b_good B))) in L. apply va_new in L. destruct L as [L|L].
  - eapply (b_act B); eauto.
  - apply (b_done B) in D. lia.
Qed.

Lemma split_sched (m : mach) id a cid kd b : Bd m -> m_log m = a ++ ESched id cid kd :: b ->
  born (m_log m) id (now_of a) cid kd /\ In id (scheduled (m_log m)) /\
  (live id (m_log m) <-> ~ In (ECancel cid) b /\ ~ In (EDone id) (m_log m)).
Proof.
  intros B E. split; [|split].
  - exists a, b. auto.
  - apply in_scheduled. exists cid, kd. rewrite E. apply in_or_app; right; left; auto.
  - split.
    + intros L. split; [|intros X; revert X; intros X; eapply not_live_done; eauto].
      destruct L as (a' & c' & k' & b' & E' & N1 & N2).
      assert (ND : NoDup (scheduled (m_log m))) by (eapply nodup_log; apply (g_inv (b_good B))).
      rewrite E in E'. rewrite E in ND.
      destruct (@split_unique _ _ _ _ _ _ _ _ _ ND E') as (<- & <- & <- & <-). auto.
    + intros [N1 N2]. exists a, cid, kd, b. repeat split; auto. intros X. apply N2. rewrite E.
      apply in_or_app; right; right; auto.
Qed.

(** *** Every task once per tick *)

Lemma tick_once fuel d g h (m0 m : mach) a :
  steps run fuel (boot d g) h = Fine m0 -> is_tick a -> step run fuel m0 a = Fine m ->
  exists t q, m_log m = m_log m0 ++ ETick t :: q /\
    (forall u, ~ In (ETick u) q) /\
    increasing (works q) /\
    (forall id, live id (m_log m0) -> ticked id q = 1) /\
    (forall id, In id (scheduled (m_log m0)) -> ~ live id (m_log m0) -> ticked id q = 0) /\
    (forall id cid kd b1 b2, q = b1 ++ ESched id cid kd :: b2 ->
       ticked id q <= 1 /\ (~ In (ECancel cid) b2 -> ticked id q = 1)).
Proof.
  intros H T S. pose proof (Bd_run _ _ _ _ _ H) as B.
  destruct (tick_step _ _ B T S) as (B' & Q & D & q & L & Sg & In1 & Lv & Fr & Lv' & Td).
  exists (time_of m0 a), q. split; [auto|]. split; [intros u; eapply seg_notick; eauto|].
  split; [auto|]. split; [|split].
  - intros id X. apply Lv in X. apply in_works_ticked in X. pose proof (ticked_le id _ In1). lia.
  - intros id X Y. apply notin_ticked. intros Z. apply Fr in Z. destruct Z as [Z|Z]; [tauto|].
    assert (ND : NoDup (scheduled (m_log m))) by (eapply nodup_log; apply (g_inv (b_good B'))).
    rewrite L, scheduled_app in ND. simpl in ND. revert ND X Z. generalize (scheduled (m_log m0)), (scheduled q).
    intros l r. induction l as [|x l IH]; simpl; intros ND X Z; [tauto|]. inversion ND; subst.
    destruct X as [->|X]; auto. rewrite in_app_iff in *. tauto.
  - intros id cid kd b1 b2 E. split; [apply ticked_le; auto|]. intros N.
    assert (X : In id (works q)).
    { assert (E' : m_log m = (m_log m0 ++ ETick (time_of m0 a) :: b1) ++ ESched id cid kd :: b2)
        by (rewrite L, E, <- app_assoc; auto).
      destruct (@split_sched _ _ _ _ _ _ B' E') as (_ & _ & LV).
      destruct (in_dec (fun x y : nat => Nat.eq_dec x y) id (works q)) as [|Nw]; auto. exfalso.
      apply Nw, Lv', LV. split; auto. rewrite L, in_app_iff. intros [Z|[Z|Z]]; [|discriminate|].
      - destruct (proj2 (b_lk B) id (or_introl Z)) as [Z1 _].
        assert (ND : NoDup (scheduled (m_log m))) by (eapply nodup_log; apply (g_inv (b_good B'))).
        rewrite L, scheduled_app in ND. simpl in ND. rewrite E, scheduled_app in ND. simpl in ND.
        apply in_split in Z1. destruct Z1 as (x & y & Z1). rewrite Z1, <- app_assoc in ND. simpl in ND.
        apply NoDup_remove_2 in ND. apply ND. rewrite !in_app_iff. simpl. auto.
      - apply in_split in Z. destruct Z as (x & y & Z). apply Nw.
        specialize (Td id x y (or_introl Z)). rewrite Z, works_app, in_app_iff; auto. }
    apply in_works_ticked in X. pose proof (ticked_le id _ In1). lia.
Qed.

Lemma step_do fuel (m m' : mach) a : step run fuel m a = Fine m' -> ~ is_tick a ->
  exists es, m_log m' = m_log m ++ es /\ Forall reqev es.
Proof.
  destruct a as [g rs| |]; simpl; try tauto. intros H _. injection H as <-.
  destruct (performs_log rs (set_world m g)) as (es & E & F). exists es. auto.
Qed.

Lemma in_dec_tick (a : act K G) : is_tick a \/ ~ is_tick a.
Proof. destruct a; simpl; tauto. Qed.

Lemma never_after_done fuel h : forall (m0 m : mach), Bd m0 ->
  (forall id a b, m_log m0 = a ++ EDone id :: b -> ticked id b = 0) ->
  steps run fuel m0 h = Fine m ->
  forall id a b, m_log m = a ++ EDone id :: b -> ticked id b = 0.
Proof.
  induction h as [|x h IH]; intros m0 m B0 H0 H; simpl in H.
  - injection H as <-. auto.
  - destruct (step run fuel m0 x) as [m1| |] eqn:S; try discriminate.
    apply (IH m1); auto; [eapply Bd_step; eauto|]. clear IH H m.
    intros id a b E. destruct (in_dec_tick x) as [T|T].
    + destruct (tick_step _ _ B0 T S) as (B' & Q & D & q & L & Sg & In1 & Lv & Fr & Lv' & Td).
      rewrite L in E. apply split_app in E.
      destruct E as [(b' & E & ->)|(a' & -> & E)].
      * rewrite ticked_app, (H0 _ _ _ E), Nat.add_0_l.
        change (ticked id (ETick (time_of m0 x) :: q)) with (ticked id q). apply notin_ticked.
        intros Z. apply Fr in Z. destruct Z as [Z|Z].
        -- apply (not_live_done B0) in Z; auto. rewrite E. apply in_or_app; right; left; auto.
        -- assert (Y : In (EDone id) (m_log m0)) by (rewrite E; apply in_or_app; right; left; auto).
           destruct (proj2 (b_lk B0) id (or_introl Y)) as [Z1 _].
           assert (ND : NoDup (scheduled (m_log m1))) by (eapply nodup_log; apply (g_inv (b_good B'))).
           rewrite L, scheduled_app in ND. simpl in ND. apply in_split in Z1.
           destruct Z1 as (u & v & Z1). rewrite Z1, <- app_assoc in ND. simpl in ND.
           apply NoDup_remove_2 in ND. apply ND. rewrite !in_app_iff. auto.
      * destruct a' as [|e a']; simpl in E; [discriminate|]. injection E as <- E.
        pose proof (Td id a' b (or_introl E)) as X. apply in_works_ticked in X.
        pose proof (ticked_le id _ In1) as Y. rewrite E, ticked_app in Y.
        change (ticked id (EDone id :: b)) with (ticked id b) in Y. lia.
    + destruct (step_do _ _ _ S T) as (es & L & F). rewrite L in E. apply split_app in E.
      destruct E as [(b' & E & ->)|(a' & -> & E)].
      * rewrite ticked_app, (H0 _ _ _ E), ticked_works, reqs_works by auto. auto.
      * exfalso. rewrite Forall_forall in F. apply (F (EDone id)). rewrite E. apply in_or_app; right; left; auto.
Qed.

Lemma finished_done fuel d g h (m : mach) id a b :
  steps run fuel (boot d g) h = Fine m -> m_log m = a ++ EDone id :: b -> ticked id b = 0.
Proof.
  intros H. eapply never_after_done; eauto; [apply Bd_boot|]. intros j x y E. destruct x; discriminate.
Qed.

Lemma in_order fuel d g h (m : mach) :
  steps run fuel (boot d g) h = Fine m -> exists n, scheduled (m_log m) = seq 0 n.
Proof. intros H. apply Bd_run in H. exists (m_made m). apply (i_sched (g_inv (b_good H))). Qed.

(** *** Delayed tasks *)

Lemma delayed_once fuel d g h (m : mach) id a cid dl b :
  steps run fuel (boot d g) h = Fine m -> m_log m = a ++ ESched id cid (KDelayed dl) :: b ->
  runs_of id (m_log m) = [] \/ exists T, runs_of id (m_log m) = [T] /\ now_of a + dl <= T.
Proof.
  intros H E. apply Bd_run in H. destruct (@split_sched _ _ _ _ _ _ H E) as (B & _ & _).
  destruct (proj1 (b_lk H) id _ _ _ B) as [[R _]|R]; auto.
Qed.

Lemma in_va_work (m : mach) id : In id (ids (va m)) -> exists w, In (id, w) (va m).
Proof. unfold ids. rewrite in_map_iff. intros ([j w] & E & H). simpl in E; subst. eauto. Qed.

Lemma live_wok (m : mach) id : Bd m -> live id (m_log m) ->
  exists w : work K, wok id w (m_log m) /\ wcur 0 (now_of (m_log m)) w.
Proof.
  intros B L. apply (i_live (g_inv (b_good B))) in L. apply in_va_work in L. destruct L as (w & L).
  exists w. split; [apply (i_wok (g_inv (b_good B))); auto|apply (g_cur (b_good B) id w); auto].
Qed.

Lemma born_eq (m : mach) id s1 c1 k1 s2 c2 k2 : Bd m ->
  born (m_log m) id s1 c1 k1 -> born (m_log m) id s2 c2 k2 -> s1 = s2 /\ c1 = c2 /\ k1 = k2.
Proof.
  intros B H1 H2. eapply born_unique; eauto. eapply nodup_log. apply (g_inv (b_good B)).
Qed.

Lemma ticked_ticks id l : 0 < ticked id l -> ticks_of id l <> [].
Proof.
  intros H E. unfold ticks_of in E. revert H E. generalize 0 at 2.
  induction l as [|e l IH]; intros n H E; [inversion H|].
  destruct e; simpl in E; unfold ticked in *; simpl in H; try (eapply IH; eauto; fail).
  destruct (wid =? id); [discriminate|]. eapply IH; eauto.
Qed.

Lemma delayed_due fuel d g h (m0 m : mach) x id a cid dl b :
  steps run fuel (boot d g) h = Fine m0 -> is_tick x -> step run fuel m0 x = Fine m ->
  m_log m = a ++ ESched id cid (KDelayed dl) :: b -> ~ In (ECancel cid) b ->
  ran id (m_log m) = (if now_of a + dl <=? now_of (m_log m) then 1 else 0).
Proof.
  intros H T S E N. pose proof (Bd_run _ _ _ _ _ H) as B.
  destruct (tick_step _ _ B T S) as (B' & Q & D & q & L & Sg & In1 & Lv & Fr & Lv' & Td).
  destruct (@split_sched _ _ _ _ _ _ B' E) as (Bn & Sc & LV).
  destruct (in_dec Nat.eq_dec id (ids (va m))) as [V|V].
  - apply (i_live (g_inv (b_good B'))) in V.
    destruct (live_wok B' V) as (w & (s & c & kd & Bn' & W) & C).
    destruct (born_eq B' Bn' Bn) as (-> & -> & ->).
    destruct w; try contradiction. destruct W as (-> & -> & _ & R & Cu & Du).
    rewrite ran_runs, R. simpl in C. rewrite later_max, Nat.max_0_r in C.
    assert (X : ticks_of id (m_log m) <> []).
    { apply ticked_ticks. apply Lv' in V. apply in_works_ticked in V. rewrite L, ticked_app.
      change (ticked id (ETick (time_of m0 x) :: q)) with (ticked id q). lia. }
    specialize (Du X). rewrite <- C.
    destruct (Nat.leb_spec (now_of a + dl) cur); auto; lia.
  - assert (Dn : In (EDone id) (m_log m)).
    { rewrite (i_live (g_inv (b_good B'))) in V.
      destruct (in_dec (fun x y : ev => ltac:(repeat decide equality)) (EDone id) (m_log m)) as [|Z]; auto.
      exfalso. apply V. apply LV. auto. }
    pose proof (proj2 (proj2 (b_lk B') id (or_introl Dn)) _ _ _ Bn) as R1. simpl in R1. rewrite R1.
    destruct (proj1 (b_lk B') id _ _ _ Bn) as [[R _]|(T0 & R & Le)].
    + rewrite ran_runs, R in R1. discriminate.
    + assert (X : T0 <= now_of (m_log m)) by (apply (runs_from_le id); fold (runs_of id (m_log m)); rewrite R; left; auto).
      destruct (Nat.leb_spec (now_of a + dl) (now_of (m_log m))); auto; lia.
Qed.

Lemma delayed_when fuel d g h (m0 m : mach) x id a cid dl b :
  steps run fuel (boot d g) h = Fine m0 -> is_tick x -> step run fuel m0 x = Fine m ->
  m_log m0 = a ++ ESched id cid (KDelayed dl) :: b -> ~ In (ECancel cid) b ->
  ran id (m_log m0) = 0 ->
  runs_of id (m_log m) = if now_of a + dl <=? now_of (m_log m) then [now_of (m_log m)] else [].
Proof.
  intros H T S E N R0. pose proof (Bd_run _ _ _ _ _ H) as B.
  destruct (tick_step _ _ B T S) as (B' & Q & D & q & L & Sg & In1 & Lv & Fr & Lv' & Td).
  destruct (@split_sched _ _ _ _ _ _ B E) as (Bn & Sc & LV).
  assert (R1 : runs_of id (m_log m) = repeat (now_of (m_log m)) (ran id (m_log m))).
  { rewrite L, runs_app, ran_app, R0. unfold runs_of. rewrite runs_from_none by auto. simpl.
    change (ran id (ETick (time_of m0 x) :: q)) with (ran id q).
    rewrite (runs_seg id _ Sg), now_app. simpl. rewrite (seg_now Sg). auto. }
  assert (Bn' : born (m_log m) id (now_of a) cid (KDelayed dl)) by (rewrite L; apply born_app; auto).
  assert (NL : ~ In (EDone id) (m_log m0)).
  { intros Z. pose proof (proj2 (proj2 (b_lk B) id (or_introl Z)) _ _ _ Bn) as Y. simpl in Y. lia. }
  assert (LI : live id (m_log m0)) by (apply LV; auto).
  assert (TK : 0 < ticked id q) by (apply in_works_ticked, Lv; auto).
  assert (TQ : ticks_of id (m_log m) = ticks_of id (m_log m0) ++ repeat (now_of (m_log m)) (ticked id q)).
  { rewrite L, ticks_app, now_app. simpl. rewrite (ticks_seg id _ Sg), (seg_now Sg). auto. }
  assert (T1 : ticked id q = 1) by (pose proof (ticked_le id _ In1); lia).
  rewrite T1 in TQ. simpl in TQ.
  destruct (proj1 (b_lk B') id _ _ _ Bn') as [[R Du]|(T0 & R & Le)].
  - rewrite TQ, last_snoc in Du. rewrite R.
    destruct (Nat.leb_spec (now_of a + dl) (now_of (m_log m))); auto.
    exfalso. destruct (ticks_of id (m_log m0)) in Du; simpl in Du; specialize (Du ltac:(discriminate)); lia.
  - assert (X : T0 = now_of (m_log m)).
    { rewrite R1 in R. destruct (ran id (m_log m)); simpl in R; [discriminate|]. injection R as -> _; auto. }
    rewrite R, X. subst T0. destruct (Nat.leb_spec (now_of a + dl) (now_of (m_log m))); auto; lia.
Qed.

(** A task that was cancelled before a tick does not run in it. *)
Lemma cancelled_never fuel d g h (m0 m : mach) x id a cid kd b :
  steps run fuel (boot d g) h = Fine m0 -> step run fuel m0 x = Fine m ->
  m_log m0 = a ++ ESched id cid kd :: b -> In (ECancel cid) b ->
  runs_of id (m_log m) = runs_of id (m_log m0) /\ ticked id (m_log m) = ticked id (m_log m0).
Proof.
  intros H S E N. pose proof (Bd_run _ _ _ _ _ H) as B.
  destruct (@split_sched _ _ _ _ _ _ B E) as (Bn & Sc & LV).
  destruct (in_dec_tick x) as [T|T].
  - destruct (tick_step _ _ B T S) as (B' & Q & D & q & L & Sg & In1 & Lv & Fr & Lv' & Td).
    destruct (tick_once _ _ _ _ _ H T S) as (t & q' & L' & _ & _ & _ & Z & _).
    rewrite L in L'. apply app_inv_head in L'. injection L' as <- <-.
    assert (NL : ~ live id (m_log m0)) by (rewrite LV; tauto).
    specialize (Z id Sc NL). rewrite L, runs_app, ticked_app. split.
    + simpl. rewrite runs_from_none, app_nil_r; auto. apply ran_tidy; auto. apply notin_ticked; auto.
    + change (ticked id (ETick (time_of m0 x) :: q)) with (ticked id q). lia.
  - destruct (step_do _ _ _ S T) as (es & L & F). rewrite L, runs_app, ticked_app, reqs_runs, app_nil_r by auto.
    rewrite (ticked_works es), reqs_works by auto. simpl. auto.
Qed.

(** Immediate tasks run in the first tick there is. *)
Lemma immediate_once fuel d g h (m : mach) id a cid b :
  steps run fuel (boot d g) h = Fine m -> m_log m = a ++ ESched id cid KImmediate :: b ->
  ran id (m_log m) = match ticks_of id (m_log m) with [] => 0 | _ => 1 end.
Proof.
  intros H E. apply Bd_run in H. destruct (@split_sched _ _ _ _ _ _ H E) as (B & _ & _).
  exact (proj1 (b_lk H) id _ _ _ B).
Qed.

(** *** Repeating tasks *)

Lemma repeating_fires fuel d g h (m : mach) id a cid i imm cap b :
  steps run fuel (boot d g) h = Fine m ->
  m_log m = a ++ ESched id cid (KRepeating i imm cap) :: b -> 0 < i ->
  let f := fires i (Nat.max 1 cap) (now_of a) (now_of a) (if imm then 1 else 0) (ticks_of id (m_log m)) in
  ran id (m_log m) <= f /\ (live id (m_log m) -> ran id (m_log m) = f).
Proof.
  intros H E P. pose proof (Bd_run _ _ _ _ _ H) as B.
  destruct (@split_sched _ _ _ _ _ _ B E) as (Bn & _ & _). split.
  - exact (proj2 (proj1 (b_lk B) id _ _ _ Bn) P).
  - intros L. destruct (live_wok B L) as (w & (s & c & kd & Bn' & W) & C).
    destruct (born_eq B Bn' Bn) as (-> & -> & ->). destruct w; try contradiction.
    destruct W as (-> & -> & W2 & W3 & W4 & W5 & W7 & W6). apply W6; auto.
Qed.

(** Its last tick was the last tick of the executor. *)
Lemma live_ticks fuel d g h (m0 m : mach) x id :
  steps run fuel (boot d g) h = Fine m0 -> is_tick x -> step run fuel m0 x = Fine m ->
  live id (m_log m) ->
  exists ts, ticks_of id (m_log m) = ts ++ [now_of (m_log m)].
Proof.
  intros H T S L0. pose proof (Bd_run _ _ _ _ _ H) as B.
  destruct (tick_step _ _ B T S) as (B' & Q & D & q & L & Sg & In1 & Lv & Fr & Lv' & Td).
  apply Lv' in L0. apply in_works_ticked in L0.
  assert (T1 : ticked id q = 1) by (pose proof (ticked_le id _ In1); lia).
  exists (ticks_of id (m_log m0)).
  rewrite L, ticks_app, now_app. simpl. rewrite (ticks_seg id _ Sg), (seg_now Sg), T1. auto.
Qed.

Lemma div_mono i s a b : 0 < i -> a <= b -> (a - s) / i <= (b - s) / i.
Proof. intros. apply Nat.div_le_mono; lia. Qed.

Lemma fires_le i cap s : 0 < i -> forall ts prev bonus, ascending (prev :: ts) ->
  fires i cap s prev bonus ts + (prev - s) / i <= (last ts prev - s) / i + (match ts with [] => 0 | _ => bonus end).
Proof.
  intros P. induction ts as [|t ts IH]; intros prev bonus A; simpl fires; [simpl; lia|].
  destruct A as [A1 A2]. specialize (IH t 0 A2). inversion A1 as [|? ? L _]; subst.
  pose proof (@div_mono i s prev t P L) as M.
  assert (Z : last (t :: ts) prev = last ts t).
  { destruct ts; auto. simpl. apply last_default. }
  rewrite Z. destruct ts; lia.
Qed.
Lemma fires_within i cap s : 0 < i -> forall ts prev bonus, ascending (prev :: ts) ->
  within i cap s prev bonus ts ->
  fires i cap s prev bonus ts + (prev - s) / i = (last ts prev - s) / i + (match ts with [] => 0 | _ => bonus end).
Proof.
  intros P. induction ts as [|t ts IH]; intros prev bonus A W; simpl fires; [simpl; lia|].
  destruct A as [A1 A2]. destruct W as [W1 W2]. specialize (IH t 0 A2 W2). inversion A1 as [|? ? L _]; subst.
  pose proof (@div_mono i s prev t P L) as M.
  assert (Z : last (t :: ts) prev = last ts t).
  { destruct ts; auto. simpl. apply last_default. }
  rewrite Z. rewrite Nat.min_r by lia. destruct ts; lia.
Qed.

Lemma ticks_from_ge id : forall l n, Forall (fun t => n <= t) (ticks_from n id l).
Proof.
  induction l as [|e l IH]; intros n; simpl; auto.
  destruct e; auto.
  - eapply Forall_impl; [|apply IH]. intros; simpl in *; lia.
  - destruct (wid =? id); auto.
Qed.
Lemma ticks_from_asc id : forall l n, ascending (ticks_from n id l).
Proof.
  induction l as [|e l IH]; intros n; simpl; auto.
  destruct e; auto. destruct (wid =? id); auto. split; auto. apply ticks_from_ge.
Qed.
Lemma ticks_from_le id : forall l n, Forall (fun t => t <= now_from n l) (ticks_from n id l).
Proof.
  induction l as [|e l IH]; intros n; simpl; auto.
  destruct e; auto. destruct (wid =? id); auto. constructor; auto. apply now_from_ge.
Qed.

Lemma repeating_asc fuel d g h (m : mach) id a cid i imm cap b :
  steps run fuel (boot d g) h = Fine m ->
  m_log m = a ++ ESched id cid (KRepeating i imm cap) :: b ->
  ascending (now_of a :: ticks_of id (m_log m)).
Proof.
  intros H E. pose proof (Bd_run _ _ _ _ _ H) as B.
  destruct (@split_sched _ _ _ _ _ _ B E) as (Bn & _ & _). split; [|apply ticks_from_asc].
  exact (proj1 (proj1 (b_lk B) id _ _ _ Bn)).
Qed.

Lemma last_le {A} (P : A -> Prop) l d : Forall P l -> P d -> P (last l d).
Proof.
  induction l as [|x l IH]; intros F D; simpl; auto. inversion F; subst. destruct l; auto.
Qed.

Lemma repeating_early fuel d g h (m : mach) id a cid i imm cap b :
  steps run fuel (boot d g) h = Fine m ->
  m_log m = a ++ ESched id cid (KRepeating i imm cap) :: b -> 0 < i ->
  ran id (m_log m) <= (now_of (m_log m) - now_of a) / i + (if imm then 1 else 0).
Proof.
  intros H E P. destruct (@repeating_fires _ _ _ _ _ _ _ _ _ _ _ _ H E P) as [R _].
  pose proof (@repeating_asc _ _ _ _ _ _ _ _ _ _ _ _ H E) as A.
  pose proof (@fires_le i (Nat.max 1 cap) (now_of a) P _ _ (if imm then 1 else 0) A) as F.
  assert (X : last (ticks_of id (m_log m)) (now_of a) <= now_of (m_log m)).
  { apply (@last_le nat (fun t => t <= now_of (m_log m))); [apply ticks_from_le|].
    rewrite E, now_app. apply now_from_ge. }
  pose proof (@div_mono i (now_of a) _ _ P X).
  destruct (ticks_of id (m_log m)); lia.
Qed.

Lemma repeating_floor fuel d g h (m0 m : mach) x id a cid i imm cap b :
  steps run fuel (boot d g) h = Fine m0 -> is_tick x -> step run fuel m0 x = Fine m ->
  m_log m = a ++ ESched id cid (KRepeating i imm cap) :: b -> 0 < i ->
  live id (m_log m) ->
  within i (Nat.max 1 cap) (now_of a) (now_of a) (if imm then 1 else 0) (ticks_of id (m_log m)) ->
  ran id (m_log m) = (now_of (m_log m) - now_of a) / i + (if imm then 1 else 0).
Proof.
  intros H T S E P L W.
  assert (H' : steps run fuel (boot d g) (h ++ [x]) = Fine m)
    by (rewrite steps_app, H; simpl; rewrite S; auto).
  destruct (@repeating_fires _ _ _ _ _ _ _ _ _ _ _ _ H' E P) as [_ R]. specialize (R L).
  pose proof (@repeating_asc _ _ _ _ _ _ _ _ _ _ _ _ H' E) as A.
  pose proof (@fires_within i (Nat.max 1 cap) (now_of a) P _ _ (if imm then 1 else 0) A W) as F.
  destruct (live_ticks _ _ _ _ _ H T S L) as (ts & Et).
  rewrite Et, last_snoc in F. rewrite Et in R.
  rewrite Nat.sub_diag, Nat.div_0_l in F by lia. destruct ts; simpl app in *; lia.
Qed.

(** At most [cap] times per tick. *)
Lemma repeating_cap fuel d g h (m0 m : mach) x id a cid i imm cap b :
  steps run fuel (boot d g) h = Fine m0 -> step run fuel m0 x = Fine m ->
  m_log m0 = a ++ ESched id cid (KRepeating i imm cap) :: b -> 0 < i ->
  ran id (m_log m) <= ran id (m_log m0) + Nat.max 1 cap.
Proof.
  intros H S E P. pose proof (Bd_run _ _ _ _ _ H) as B.
  destruct (@split_sched _ _ _ _ _ _ B E) as (Bn & Sc & LV).
  destruct (in_dec_tick x) as [T|T].
  - destruct (tick_step _ _ B T S) as (B' & Q & D & q & L & Sg & In1 & Lv & Fr & Lv' & Td).
    assert (H' : steps run fuel (boot d g) (h ++ [x]) = Fine m)
      by (rewrite steps_app, H; simpl; rewrite S; auto).
    destruct (in_dec Nat.eq_dec id (works q)) as [W|W].
    + destruct (Fr id W) as [Lq|Lq].
      * destruct (@repeating_fires _ _ _ _ _ _ _ _ _ _ _ _ H E P) as [_ R]. specialize (R Lq).
        assert (E' : m_log m = a ++ ESched id cid (KRepeating i imm cap) :: (b ++ ETick (time_of m0 x) :: q))
          by (rewrite L, E, <- app_assoc; auto).
        destruct (@repeating_fires _ _ _ _ _ _ _ _ _ _ _ _ H' E' P) as [R' _].
        apply in_works_ticked in W.
        assert (T1 : ticked id q = 1) by (pose proof (ticked_le id _ In1); lia).
        assert (TQ : ticks_of id (m_log m) = ticks_of id (m_log m0) ++ [now_of (m_log m)]).
        { rewrite L, ticks_app, now_app. simpl. rewrite (ticks_seg id _ Sg), (seg_now Sg), T1. auto. }
        rewrite TQ, fires_snoc in R'. lia.
      * exfalso.
        assert (ND : NoDup (scheduled (m_log m))) by (eapply nodup_log; apply (g_inv (b_good B'))).
        rewrite L, scheduled_app in ND. simpl in ND. apply in_split in Sc.
        destruct Sc as (u & v & Sc). rewrite Sc, <- app_assoc in ND. simpl in ND.
        apply NoDup_remove_2 in ND. apply ND. rewrite !in_app_iff. auto.
    + rewrite L, ran_app. change (ran id (ETick (time_of m0 x) :: q)) with (ran id q).
      rewrite (ran_tidy id Td W). lia.
  - destruct (step_do _ _ _ S T) as (es & L & F). rewrite L, ran_app, (ran_runs id es).
    unfold runs_of. rewrite reqs_runs by auto. simpl. lia.
Qed.

(** *** Time *)

Lemma step_time fuel d g h (m0 m : mach) x :
  steps run fuel (boot d g) h = Fine m0 -> step run fuel m0 x = Fine m ->
  m_now m0 <= m_now m /\ m_now m = now_of (m_log m) /\ m_snow m = m_now m.
Proof.
  intros H S. pose proof (Bd_run _ _ _ _ _ H) as B. pose proof (Bd_step _ _ _ B S) as B'.
  rewrite (b_now B), (b_now B'), (g_snow (b_good B')). split; auto.
  assert (L : exists es, m_log m = m_log m0 ++ es).
  { destruct (in_dec_tick x) as [T|T].
    - destruct (tick_step _ _ B T S) as (_ & _ & _ & q & L & _). eauto.
    - destruct (step_do _ _ _ S T) as (es & L & _). eauto. }
  destruct L as (es & ->). rewrite now_app. apply now_from_ge.
Qed.

Lemma given_app l r : given (l ++ r) = given l ++ given r.
Proof. induction l as [|e l IH]; simpl; auto. destruct e; simpl; auto. f_equal; auto. Qed.
Lemma given_seg t q : Forall (seg t) q -> Forall (fun u => u = t) (given q).
Proof.
  induction 1 as [|e q S F IH]; simpl; auto.
  destruct S as [S|[(o & ->)|[(j & ->)|(j & ->)]]]; auto. destruct e; simpl in S; try tauto; auto.
Qed.
Lemma ascending_app l r : ascending (l ++ r) <->
  ascending l /\ ascending r /\ (forall a b, In a l -> In b r -> a <= b).
Proof.
  induction l as [|x l IH]; simpl.
  - intuition.
  - rewrite Forall_app, IH, !Forall_forall. split.
    + intros ((A & B) & C & D & E). repeat split; auto. intros a b [<-|H] H'; auto.
    + intros ((A & B) & D & E). repeat split; auto.
Qed.
Lemma ascending_const t l : Forall (fun u => u = t) l -> ascending l.
Proof.
  induction 1 as [|u l E F IH]; simpl; auto. split; auto. subst.
  rewrite Forall_forall in *. intros x H. rewrite (F x H). lia.
Qed.

Lemma given_ascending fuel h : forall (m0 m : mach), Bd m0 -> Forall relative h ->
  ascending (given (m_log m0)) -> Forall (fun t => t <= now_of (m_log m0)) (given (m_log m0)) ->
  steps run fuel m0 h = Fine m ->
  ascending (given (m_log m)) /\ Forall (fun t => t <= now_of (m_log m)) (given (m_log m)).
Proof.
  induction h as [|x h IH]; intros m0 m B F A Le H; simpl in H.
  - injection H as <-. auto.
  - destruct (step run fuel m0 x) as [m1| |] eqn:S; try discriminate.
    inversion F as [|? ? R F']; subst.
    assert (Q : ascending (given (m_log m1)) /\ Forall (fun t => t <= now_of (m_log m1)) (given (m_log m1))).
    { destruct (in_dec_tick x) as [T|T].
      - destruct (tick_step _ _ B T S) as (_ & _ & _ & q & L & Sg & _).
        destruct x as [|dl|]; simpl in T, R; try tauto. simpl time_of in *. rewrite (b_now B) in *.
        pose proof (given_seg Sg) as Gs. rewrite L, given_app, now_app. simpl. rewrite (seg_now Sg).
        split.
        + apply ascending_app. split; [auto|]. split; [eapply ascending_const; eauto|].
          intros u v Hu Hv. rewrite Forall_forall in Gs, Le. rewrite (Gs v Hv). specialize (Le u Hu). lia.
        + apply Forall_app. split.
          * eapply Forall_impl; [|exact Le]. simpl; intros; lia.
          * eapply Forall_impl; [|exact Gs]. simpl; intros; lia.
      - destruct (step_do _ _ _ S T) as (es & L & Fe).
        assert (Z : given es = []).
        { clear - Fe. induction Fe as [|e es R _ IH]; simpl; auto. destruct e; simpl in R; tauto. }
        rewrite L, given_app, Z, app_nil_r, now_app, reqs_now by auto. auto. }
    destruct Q as [Q1 Q2]. apply (IH m1 m); auto. exact (Bd_step _ _ _ B S).
Qed.

Lemma time_ascends fuel d g h (m : mach) : Forall relative h ->
  steps run fuel (boot d g) h = Fine m -> ascending (given (m_log m)).
Proof.
  intros F H. destruct (@given_ascending fuel h _ m (Bd_boot d g) F Logic.I (Forall_nil _) H); auto.
Qed.
End More.
