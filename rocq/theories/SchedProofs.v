(** Proofs about the scheduler and its executor: what the log says about every task. *)
From Verif Require Import Base SchedModel SchedSpec.
Set Implicit Arguments.

(** ** Logs *)

Lemma later_max a b : later a b = Nat.max a b.
Proof. unfold later; destruct (Nat.ltb_spec a b); lia. Qed.

Lemma now_from_app : forall l n r, now_from n (l ++ r) = now_from (now_from n l) r.
Proof. induction l as [|e l IH]; intros; simpl; auto. destruct e; auto. Qed.
Lemma now_app l r : now_of (l ++ r) = now_from (now_of l) r.
Proof. apply now_from_app. Qed.
Lemma now_from_ge : forall l n, n <= now_from n l.
Proof.
  induction l as [|e l IH]; intros; simpl; auto.
  destruct e; auto. specialize (IH (Nat.max n t)); lia.
Qed.
Lemma ticks_from_app : forall l n id r,
  ticks_from n id (l ++ r) = ticks_from n id l ++ ticks_from (now_from n l) id r.
Proof.
  induction l as [|e l IH]; intros; simpl; auto.
  destruct e; auto. destruct (wid =? id); simpl; rewrite IH; auto.
Qed.
Lemma ticks_app id l r : ticks_of id (l ++ r) = ticks_of id l ++ ticks_from (now_of l) id r.
Proof. apply ticks_from_app. Qed.
Lemma runs_from_app : forall l n id r,
  runs_from n id (l ++ r) = runs_from n id l ++ runs_from (now_from n l) id r.
Proof.
  induction l as [|e l IH]; intros; simpl; auto.
  destruct e; auto. destruct o; auto. destruct (wid =? id); simpl; rewrite IH; auto.
Qed.
Lemma runs_app id l r : runs_of id (l ++ r) = runs_of id l ++ runs_from (now_of l) id r.
Proof. apply runs_from_app. Qed.

Lemma ran_runs_from : forall l n id, ran id l = length (runs_from n id l).
Proof.
  unfold ran; induction l as [|e l IH]; intros; simpl; auto.
  destruct e; auto. destruct o; auto. destruct (wid =? id); simpl; auto.
Qed.
Lemma ran_runs id l : ran id l = length (runs_of id l).
Proof. apply ran_runs_from. Qed.
Lemma ran_app id l r : ran id (l ++ r) = ran id l + ran id r.
Proof. unfold ran. rewrite filter_app, app_length; auto. Qed.
Lemma ticked_app id l r : ticked id (l ++ r) = ticked id l + ticked id r.
Proof. unfold ticked. rewrite filter_app, app_length; auto. Qed.
Lemma works_app l r : works (l ++ r) = works l ++ works r.
Proof. induction l as [|e l IH]; simpl; auto. destruct e; simpl; rewrite ?IH; auto. Qed.
Lemma scheduled_app l r : scheduled (l ++ r) = scheduled l ++ scheduled r.
Proof. induction l as [|e l IH]; simpl; auto. destruct e; simpl; rewrite ?IH; auto. Qed.
Lemma ticked_works : forall l id, ticked id l = count_occ Nat.eq_dec (works l) id.
Proof.
  unfold ticked; induction l as [|e l IH]; intros; simpl; auto.
  destruct e; auto. simpl. destruct (Nat.eqb_spec wid id), (Nat.eq_dec wid id); simpl;
    rewrite ?IH; try congruence; auto.
Qed.
Lemma in_scheduled id l : In id (scheduled l) <-> exists cid kd, In (ESched id cid kd) l.
Proof.
  induction l as [|e l IH]; simpl.
  - split; [tauto|]. intros (c & k & []).
  - destruct e; simpl; rewrite ?IH; split.
    all: try (intros (c & k & H); exists c, k; now auto).
    all: try (intros (c & k & [H|H]); [discriminate|exists c, k; now auto]).
    + intros [->|(c & k & H)]; [do 2 eexists; left; reflexivity|exists c, k; auto].
    + intros (c & k & [H|H]); [injection H as -> _ _; auto|right; exists c, k; auto].
Qed.

Lemma increasing_app l r :
  increasing (l ++ r) <-> increasing l /\ increasing r /\ (forall a b, In a l -> In b r -> a < b).
Proof.
  induction l as [|a l IH]; simpl.
  - split; [intros H; repeat split; auto; intros ? ? []|tauto].
  - rewrite IH, Forall_app. split.
    + intros [[H1 H2] (H3 & H4 & H5)]. repeat split; auto.
      intros x b [<-|Hx] Hb; auto. rewrite Forall_forall in H2; auto.
    + intros ([H1 H2] & H3 & H4). repeat split; auto.
      rewrite Forall_forall; intros; apply H4; auto.
Qed.
Lemma increasing_nodup l : increasing l -> NoDup l.
Proof.
  induction l as [|a l IH]; simpl; constructor; [|tauto].
  destruct H as [H _]. rewrite Forall_forall in H. intros Hi; apply H in Hi; lia.
Qed.
Lemma increasing_filter f l : increasing l -> increasing (filter f l).
Proof.
  induction l as [|a l IH]; simpl; auto. intros [H1 H2].
  destruct (f a); simpl; auto. split; auto.
  rewrite Forall_forall in *. intros x Hx; apply filter_In in Hx; apply H1; tauto.
Qed.
Lemma increasing_seq : forall n a, increasing (seq a n).
Proof.
  induction n as [|n IH]; intros; simpl; auto. split; auto.
  rewrite Forall_forall; intros x Hx; apply in_seq in Hx; lia.
Qed.

Lemma mem_in i l : mem i l = true <-> In i l.
Proof.
  unfold mem. rewrite existsb_exists. split.
  - intros (x & H & E). apply Nat.eqb_eq in E; subst; auto.
  - intros H; exists i; split; auto. apply Nat.eqb_refl.
Qed.
Lemma mem_notin i l : mem i l = false <-> ~ In i l.
Proof. rewrite <- mem_in. destruct (mem i l); split; congruence. Qed.

(** A task was scheduled at time [s], with cancellation id [cid], as a [kd]. *)
Definition born (l : list ev) (id s cid : nat) (kd : kind) : Prop :=
  exists a b, l = a ++ ESched id cid kd :: b /\ s = now_of a.

Lemma born_app l r id s cid kd : born l id s cid kd -> born (l ++ r) id s cid kd.
Proof.
  intros (a & b & -> & ->). exists a, (b ++ r). now rewrite <- app_assoc.
Qed.
Lemma born_in l id s cid kd : born l id s cid kd -> In (ESched id cid kd) l.
Proof. intros (a & b & -> & _). apply in_or_app; simpl; auto. Qed.

Lemma split_unique : forall a1 a2 b1 b2 id c1 c2 k1 k2,
  NoDup (scheduled (a1 ++ ESched id c1 k1 :: b1)) ->
  a1 ++ ESched id c1 k1 :: b1 = a2 ++ ESched id c2 k2 :: b2 ->
  a1 = a2 /\ c1 = c2 /\ k1 = k2 /\ b1 = b2.
Proof.
  induction a1 as [|x a1 IH]; intros a2 b1 b2 id c1 c2 k1 k2 N E.
  - destruct a2 as [|y a2]; simpl in E.
    + injection E as -> -> ->; auto.
    + injection E as <- ->. exfalso. simpl in N. inversion N as [|? ? H _]; subst.
      apply H. rewrite scheduled_app. apply in_or_app; simpl; auto.
  - destruct a2 as [|y a2]; simpl in E.
    + injection E as -> <-. exfalso. simpl in N. inversion N as [|? ? H _]; subst.
      apply H. rewrite scheduled_app. apply in_or_app; simpl; auto.
    + injection E as <- E. apply IH in E; [|simpl in N; destruct x; auto; now inversion N].
      destruct E as (-> & -> & -> & ->); auto.
Qed.

Lemma in_split_sched id cid kd l : In (ESched id cid kd) l ->
  exists a b, l = a ++ ESched id cid kd :: b.
Proof. intros H. apply in_split in H. auto. Qed.

Lemma in_sched_unique l id c1 c2 k1 k2 : NoDup (scheduled l) ->
  In (ESched id c1 k1) l -> In (ESched id c2 k2) l -> c1 = c2 /\ k1 = k2.
Proof.
  intros N H1 H2. apply in_split in H1. destruct H1 as (a1 & b1 & E1).
  apply in_split in H2. destruct H2 as (a2 & b2 & E2).
  subst l. eapply split_unique in E2; eauto. tauto.
Qed.

Lemma snoc_split {A} : forall (a b : list A) l e x, l ++ [e] = a ++ x :: b ->
  (b = [] /\ l = a /\ e = x) \/ (exists b', b = b' ++ [e] /\ l = a ++ x :: b').
Proof.
  intros a b l e x H.
  destruct b as [|y b] using rev_ind.
  - left. apply app_inj_tail in H. destruct H; auto.
  - right. clear IHb. exists b.
    change (x :: b ++ [y]) with ((x :: b) ++ [y]) in H. rewrite app_assoc in H.
    apply app_inj_tail in H. destruct H as [H ->]; auto.
Qed.

Lemma live_snoc id l e :
  live id (l ++ [e]) <->
  (exists cid kd, e = ESched id cid kd) \/
  (exists a cid kd b, l = a ++ ESched id cid kd :: b /\
    ~ In (ECancel cid) b /\ ~ In (EDone id) b /\ e <> ECancel cid /\ e <> EDone id).
Proof.
  split.
  - intros (a & cid & kd & b & H & N1 & N2).
    apply snoc_split in H. destruct H as [(-> & -> & ->)|(b' & -> & ->)].
    + left; eauto.
    + right. exists a, cid, kd, b'. rewrite !in_app_iff in *; simpl in *. repeat split; tauto.
  - intros [(cid & kd & ->)|(a & cid & kd & b & -> & N1 & N2 & N3 & N4)].
    + exists l, cid, kd, []. simpl; auto.
    + exists a, cid, kd, (b ++ [e]). rewrite <- app_assoc. simpl.
      rewrite !in_app_iff; simpl. repeat split; auto; intros [|[|[]]]; auto.
Qed.

Lemma live_in id l : live id l -> In id (scheduled l).
Proof.
  intros (a & cid & kd & b & -> & _). apply in_scheduled. exists cid, kd.
  apply in_or_app; simpl; auto.
Qed.

(** Events that are requests. *)
Definition reqev (e : ev) : Prop :=
  match e with
  | ESched _ _ _ | ECancel _ | EAddInv _ _ | EInvoke _ | ECancelInv _ => True
  | _ => False
  end.

(** Events that say nothing about which tasks are live. *)
Definition idle (e : ev) : Prop :=
  match e with
  | ESched _ _ _ | ECancel _ | EDone _ => False
  | _ => True
  end.

Lemma live_idle id l e : idle e -> (live id (l ++ [e]) <-> live id l).
Proof.
  intros I. rewrite live_snoc. split.
  - intros [(cid & kd & ->)|(a & cid & kd & b & -> & N1 & N2 & _)]; [destruct I|].
    exists a, cid, kd, b; auto.
  - intros (a & cid & kd & b & -> & N1 & N2). right. exists a, cid, kd, b.
    repeat split; auto; intros ->; destruct I.
Qed.

Lemma reqs_now es : Forall reqev es -> forall n, now_from n es = n.
Proof. induction 1 as [|e es H _ IH]; intros; simpl; auto. destruct e; simpl in H; try tauto; auto. Qed.
Lemma reqs_ticks es : Forall reqev es -> forall n id, ticks_from n id es = [].
Proof. induction 1 as [|e es H _ IH]; intros; simpl; auto. destruct e; simpl in H; try tauto; auto. Qed.
Lemma reqs_runs es : Forall reqev es -> forall n id, runs_from n id es = [].
Proof. induction 1 as [|e es H _ IH]; intros; simpl; auto. destruct e; simpl in H; try tauto; auto. Qed.
Lemma reqs_works es : Forall reqev es -> works es = [].
Proof. induction 1 as [|e es H _ IH]; intros; simpl; auto. destruct e; simpl in H; try tauto; auto. Qed.

(** ** What is live once the queue is drained *)

Section Sched.
Context {K G : Type}.
Variable run : K -> nat -> G -> K * bool * G * list (req K).
Notation mach := (mach K G).
Notation work := (work K).

Definition view : Type := (list (nat * work) * (nat -> list nat) * nat)%type.
Definition view_one (v : view) (a : action K) : view :=
  let '(ac, c, n) := v in
  match a with
  | AActivate cid w => (ac ++ [(n, w)], set c cid (c cid ++ [n]), S n)
  | ACancel cid => (remove_works (c cid) ac, set c cid [], n)
  | _ => v
  end.
Definition view_all (v : view) (q : list (action K)) : view := fold_left view_one q v.
Definition vw (m : mach) : view := view_all (m_active m, m_cmap m, m_next m) (m_queue m).
Definition va (m : mach) := fst (fst (vw m)).
Definition vc (m : mach) := snd (fst (vw m)).
Definition vn (m : mach) := snd (vw m).
Definition ids (a : list (nat * work)) : list nat := map fst a.

Lemma vw_split m : vw m = (va m, vc m, vn m).
Proof. unfold va, vc, vn. destruct (vw m) as [[a c] n]; auto. Qed.

Lemma view_snoc v q a : view_all v (q ++ [a]) = view_one (view_all v q) a.
Proof. unfold view_all. rewrite fold_left_app; auto. Qed.

(** The fields a drain does not touch. *)
Lemma drain_fields : forall q (m : mach),
  let m' := fold_left (@drain_one K G) q m in
  (m_active m', m_cmap m', m_next m') = view_all (m_active m, m_cmap m, m_next m) q /\
  m_snow m' = m_snow m /\ m_queue m' = m_queue m /\ m_made m' = m_made m /\
  m_now m' = m_now m /\ m_ticked m' = m_ticked m /\ m_depth m' = m_depth m /\
  m_world m' = m_world m /\ m_log m' = m_log m.
Proof.
  induction q as [|a q IH]; intros m; cbn [fold_left]; [repeat split; auto|].
  specialize (IH (drain_one m a)). cbv zeta in *.
  destruct IH as (I1 & I2 & I3 & I4 & I5 & I6 & I7 & I8 & I9).
  rewrite I1, I2, I3, I4, I5, I6, I7, I8, I9.
  destruct a; cbn; repeat split; auto.
Qed.

Lemma ids_put id (w : work) l : ids (put_work id w l) = ids l.
Proof.
  unfold ids, put_work. rewrite map_map. apply map_ext.
  intros [j x]; simpl. destruct (Nat.eqb_spec j id); simpl; auto.
Qed.
Lemma remove_put id (w : work) js l :
  remove_works js (put_work id w l) = put_work id w (remove_works js l).
Proof.
  unfold remove_works, put_work. induction l as [|[j x] l IH]; simpl; auto.
  destruct (Nat.eqb_spec j id) as [->|N]; simpl.
  - destruct (mem id js); simpl; auto. rewrite Nat.eqb_refl, IH; auto.
  - destruct (mem j js); simpl; auto. destruct (Nat.eqb_spec j id); [tauto|]. rewrite IH; auto.
Qed.
Lemma remove_remove js ks (l : list (nat * work)) :
  remove_works js (remove_works ks l) = remove_works ks (remove_works js l).
Proof.
  unfold remove_works. induction l as [|[j x] l IH]; simpl; auto.
  destruct (mem j js) eqn:E1, (mem j ks) eqn:E2; simpl; rewrite ?E1, ?E2; simpl; rewrite IH; auto.
Qed.
Lemma put_app id (w : work) l r : put_work id w (l ++ r) = put_work id w l ++ put_work id w r.
Proof. apply map_app. Qed.
Lemma remove_app js (l r : list (nat * work)) :
  remove_works js (l ++ r) = remove_works js l ++ remove_works js r.
Proof. apply filter_app. Qed.

(** Updating or removing a task commutes with what is in the queue. *)
Lemma view_put : forall q a c n id w, id < n ->
  view_all (put_work id w a, c, n) q =
  (let '(a', c', n') := view_all (a, c, n) q in (put_work id w a', c', n')).
Proof.
  induction q as [|x q IH]; intros a c n id w L; simpl; auto.
  destruct x; simpl; auto.
  - rewrite <- IH by lia. f_equal. rewrite put_app. simpl.
    destruct (Nat.eqb_spec n id); [lia|auto].
  - rewrite <- IH by lia. rewrite remove_put; auto.
Qed.
Lemma view_remove : forall q a c n js, (forall j, In j js -> j < n) ->
  view_all (remove_works js a, c, n) q =
  (let '(a', c', n') := view_all (a, c, n) q in (remove_works js a', c', n')).
Proof.
  induction q as [|x q IH]; intros a c n js L; simpl; auto.
  destruct x; simpl; auto.
  - rewrite <- IH by (intros j Hj; specialize (L j Hj); lia). f_equal. rewrite remove_app. simpl.
    destruct (mem n js) eqn:E; auto. apply mem_in in E. apply L in E. lia.
  - rewrite <- IH by auto. rewrite remove_remove; auto.
Qed.
Lemma in_ids_remove id js (l : list (nat * work)) : In id (ids (remove_works js l)) <-> In id (ids l) /\ ~ In id js.
Proof.
  unfold ids, remove_works. rewrite !in_map_iff. split.
  - intros ([j x] & E & H). simpl in E; subst. apply filter_In in H. destruct H as [H M].
    simpl in M. apply negb_true_iff, mem_notin in M. split; auto. exists (id, x); auto.
  - intros (([j x] & E & H) & N). simpl in E; subst. exists (id, x). split; auto.
    apply filter_In. split; auto. simpl. apply negb_true_iff, mem_notin; auto.
Qed.
Lemma in_remove id (w : work) js l : In (id, w) (remove_works js l) <-> In (id, w) l /\ ~ In id js.
Proof.
  unfold remove_works. rewrite filter_In. simpl. rewrite negb_true_iff, mem_notin. tauto.
Qed.
Lemma ids_remove js (l : list (nat * work)) : ids (remove_works js l) = filter (fun j => negb (mem j js)) (ids l).
Proof.
  unfold ids, remove_works. induction l as [|[j x] l IH]; simpl; auto.
  destruct (mem j js); simpl; rewrite ?IH; auto.
Qed.

(** ** The invariant *)

(** A task in the state [w] is what its part of the log says. *)
Definition wok (id : nat) (w : work) (l : list ev) : Prop :=
  exists s cid kd, born l id s cid kd /\
  match w, kd with
  | WDelayed on cur d ko, KDelayed d' =>
      d = d' /\ on = s /\ (exists k, ko = Some k) /\ runs_of id l = [] /\
      cur = last (ticks_of id l) s /\ (ticks_of id l <> [] -> cur < s + d)
  | WImmediate ko, KImmediate => (exists k, ko = Some k) /\ runs_of id l = []
  | WRepeating imm c cur i cap k, KRepeating i' imm' cap' =>
      i = i' /\ cap = Nat.max 1 cap' /\ cur = last (ticks_of id l) s /\ s <= cur /\ c <= cur /\
      imm = (imm' && match ticks_of id l with [] => true | _ => false end) /\
      Forall (fun t => s <= t) (ticks_of id l) /\
      (0 < i -> c = s + i * ((cur - s) / i) /\
        ran id l = fires i cap s s (if imm' then 1 else 0) (ticks_of id l))
  | WContinuous _ _, KContinuous => ran id l = length (ticks_of id l)
  | WInvoked _, KInvoked => ran id l = length (ticks_of id l)
  | _, _ => False
  end.

(** Events that are not about the task [id]. *)
Definition foreign (id : nat) (e : ev) : Prop :=
  match e with EWork j => j <> id | ERan (OWork j) _ => j <> id | _ => True end.

Lemma foreign_ticks id es : Forall (foreign id) es -> forall n, ticks_from n id es = [].
Proof.
  induction 1 as [|e es H _ IH]; intros; simpl; auto. destruct e; simpl in H; auto.
  destruct (Nat.eqb_spec wid id); [tauto|auto].
Qed.
Lemma foreign_runs id es : Forall (foreign id) es -> forall n, runs_from n id es = [].
Proof.
  induction 1 as [|e es H _ IH]; intros; simpl; auto. destruct e; simpl in H; auto.
  destruct o; auto. destruct (Nat.eqb_spec wid id); [tauto|auto].
Qed.
Lemma reqev_foreign id e : reqev e -> foreign id e.
Proof. destruct e; simpl; tauto. Qed.

Lemma wok_app id w l r : Forall (foreign id) r -> wok id w l -> wok id w (l ++ r).
Proof.
  intros F (s & cid & kd & B & H). exists s, cid, kd. split; [apply born_app; auto|].
  assert (T : ticks_of id (l ++ r) = ticks_of id l)
    by (rewrite ticks_app, foreign_ticks, app_nil_r; auto).
  assert (R : runs_of id (l ++ r) = runs_of id l)
    by (rewrite runs_app, foreign_runs, app_nil_r; auto).
  rewrite !ran_runs in *. rewrite T, R; auto.
Qed.

(** [ex] are the tasks whose state in the table is stale, because they are running. *)
Record Inv (ex : nat -> Prop) (m : mach) : Prop := mkInv {
  i_made : vn m = m_made m;
  i_sched : scheduled (m_log m) = seq 0 (m_made m);
  i_sort : increasing (ids (va m));
  i_live : forall id, In id (ids (va m)) <-> live id (m_log m);
  i_cmap : forall cid id, In id (vc m cid) -> id < vn m /\
    (In id (ids (va m)) -> exists kd, In (ESched id cid kd) (m_log m));
  i_cmap2 : forall id cid kd, In id (ids (va m)) -> In (ESched id cid kd) (m_log m) ->
    In id (vc m cid);
  i_next : forall id, In id (ids (m_active m)) -> id < m_next m;
  i_wok : forall id w, In (id, w) (va m) \/ In (id, w) (m_active m) -> ~ ex id ->
    wok id w (m_log m)
}.

Lemma nodup_log ex m : Inv ex m -> NoDup (scheduled (m_log m)).
Proof. intros I. rewrite (i_sched I). apply seq_NoDup. Qed.

Lemma in_va_lt ex m id : Inv ex m -> In id (ids (va m)) -> id < m_made m.
Proof.
  intros I H. apply (i_live I) in H. apply live_in in H.
  rewrite (i_sched I) in H. apply in_seq in H. lia.
Qed.

(** *** Requests *)

(** A machine that only differs in the queue, the number of tasks made, the world and the
    log. *)
Definition same (m m' : mach) : Prop :=
  m_snow m' = m_snow m /\ m_now m' = m_now m /\ m_next m' = m_next m /\
  m_active m' = m_active m /\ m_cmap m' = m_cmap m /\ m_inv m' = m_inv m /\
  m_invoked m' = m_invoked m /\ m_ticked m' = m_ticked m /\ m_depth m' = m_depth m.

Lemma same_refl m : same m m.
Proof. repeat split. Qed.
Lemma same_trans m1 m2 m3 : same m1 m2 -> same m2 m3 -> same m1 m3.
Proof. unfold same; intuition congruence. Qed.
Lemma same_log m e : same m (log m e).
Proof. repeat split. Qed.
Lemma same_world m g : same m (set_world m g).
Proof. repeat split. Qed.

Lemma perform_same m r : same m (perform m r).
Proof. destruct r; repeat split. Qed.
Lemma performs_same rs : forall m : mach, same m (performs m rs).
Proof.
  induction rs as [|r rs IH]; intros m; [apply same_refl|].
  apply same_trans with (perform m r); [apply perform_same|]. apply IH.
Qed.
Lemma performs_log rs : forall m : mach,
  exists es, m_log (performs m rs) = m_log m ++ es /\ Forall reqev es.
Proof.
  induction rs as [|r rs IH]; intros m.
  - exists []. rewrite app_nil_r; auto.
  - destruct (IH (perform m r)) as (es & E & F).
    assert (H : exists e, m_log (perform m r) = m_log m ++ [e] /\ reqev e)
      by (destruct r; eexists; split; reflexivity || exact I).
    destruct H as (e & He & Re). exists (e :: es).
    unfold performs in *; cbn [fold_left]. rewrite E, He, <- app_assoc. auto.
Qed.

Lemma Inv_ex (ex ex' : nat -> Prop) m : (forall id, ex id -> ex' id) -> Inv ex m -> Inv ex' m.
Proof.
  intros H [H1 H2 H3 H4 H5 H6 H7 H8]. constructor; auto.
Qed.

(** Logging an event that does not matter. *)
Lemma Inv_log (ex : nat -> Prop) m e : idle e -> (forall id, ex id \/ foreign id e) ->
  Inv ex m -> Inv ex (log m e).
Proof.
  intros Id Fo [H1 H2 H3 H4 H5 H6 H7 H8].
  change (va (log m e)) with (va m) in *. 
  assert (S0 : scheduled (m_log m ++ [e]) = scheduled (m_log m)).
  { rewrite scheduled_app. destruct e; simpl in Id; try tauto; simpl; apply app_nil_r. }
  assert (SI : forall id cid kd, In (ESched id cid kd) (m_log m ++ [e]) <-> In (ESched id cid kd) (m_log m)).
  { intros. rewrite in_app_iff. simpl. split; auto. intros [?|[->|[]]]; auto. destruct Id. }
  constructor; try assumption; cbn [m_log log].
  - rewrite S0; exact H2.
  - intros id. rewrite live_idle by auto. apply H4.
  - intros cid id H. destruct (H5 cid id H) as [L X]. split; auto.
    intros Hi. destruct (X Hi) as (kd & Hk). exists kd. apply SI; auto.
  - intros id cid kd Hi Hs. apply SI in Hs. eapply H6; eauto.
  - intros id w Hi Hx. apply wok_app; auto. constructor; auto.
    destruct (Fo id); tauto.
Qed.

Lemma Inv_world ex m g : Inv ex m -> Inv ex (set_world m g).
Proof. intros [H1 H2 H3 H4 H5 H6 H7 H8]. constructor; assumption. Qed.

Lemma vw_enqueue (m : mach) n a : vw (enqueue m n a) = view_one (vw m) a.
Proof. unfold vw. cbn [m_queue enqueue m_active m_cmap m_next]. apply view_snoc. Qed.
Lemma vw_log (m : mach) e : vw (log m e) = vw m.
Proof. reflexivity. Qed.

Lemma wok_new id l cid kd k :
  (forall e, In e l -> foreign id e) -> 
  wok id (hook (now_of l) (new_work kd k)) (l ++ [ESched id cid kd]).
Proof.
  intros F. exists (now_of l), cid, kd. split.
  { exists l, []. auto. }
  assert (T : ticks_of id (l ++ [ESched id cid kd]) = []).
  { rewrite ticks_app. simpl. rewrite app_nil_r. apply foreign_ticks, Forall_forall; auto. }
  assert (R : runs_of id (l ++ [ESched id cid kd]) = []).
  { rewrite runs_app. simpl. rewrite app_nil_r. apply foreign_runs, Forall_forall; auto. }
  rewrite !ran_runs, T, R. destruct kd; cbn [new_work hook last length fires];
    rewrite ?later_max, ?Nat.max_0_l; repeat split; eauto; try congruence.
  - destruct cap; simpl; lia.
  - rewrite andb_true_r; auto.
  - rewrite Nat.sub_diag, Nat.div_0_l, Nat.mul_0_r by lia. lia.
Qed.

(** A task that has not been scheduled yet is not in the log. *)
Definition fresh_ok (m : mach) : Prop :=
  forall e, In e (m_log m) -> forall id, m_made m <= id -> foreign id e.

Lemma Inv_perform (ex : nat -> Prop) (m : mach) r : m_snow m = now_of (m_log m) -> fresh_ok m ->
  (forall id, ex id -> id < m_made m) ->
  Inv ex m -> Inv ex (perform m r).
Proof.
  intros Sn Fr Ex I. pose proof I as [H1 H2 H3 H4 H5 H6 H7 H8].
  assert (LT : forall id, In id (ids (va m)) -> id < m_made m) by (intros; eapply in_va_lt; eauto).
  destruct r; unfold perform.
  - (* schedule *)
    set (w := hook (m_snow m) (new_work kd k)).
    assert (V : vw (log (enqueue m (S (m_made m)) (AActivate cid w)) (ESched (m_made m) cid kd)) =
      (va m ++ [(vn m, w)], set (vc m) cid (vc m cid ++ [vn m]), S (vn m))).
    { rewrite vw_log, vw_enqueue, vw_split. reflexivity. }
    assert (Va : forall x, In x (va m ++ [(vn m, w)]) <-> In x (va m) \/ x = (vn m, w)).
    { intros x. rewrite in_app_iff; simpl. intuition auto. }
    assert (Vi : forall id, In id (ids (va m ++ [(vn m, w)])) <-> In id (ids (va m)) \/ id = vn m).
    { intros id. unfold ids. rewrite map_app, in_app_iff; simpl. intuition auto. }
    constructor; unfold va, vc, vn; rewrite ?V; cbn [fst snd m_made log enqueue m_log m_active m_next].
    + rewrite H1; auto.
    + rewrite scheduled_app, H2. cbn [scheduled]. rewrite seq_S; auto.
    + unfold ids. rewrite map_app. apply increasing_app.
      split; [exact H3|]. split; [simpl; auto|]. simpl.
      intros a b Ha [<-|[]]. apply LT in Ha. rewrite H1; auto.
    + intros id. rewrite Vi, live_snoc, H4. split.
      * intros [(a & c & kd' & b & E & N1 & N2)|E].
        -- right. exists a, c, kd', b. repeat split; auto; discriminate.
        -- left. rewrite E, H1. eauto.
      * intros [(c & kd' & E)|(a & c & kd' & b & E & N1 & N2 & _)].
        -- injection E as E _ _. rewrite H1. auto.
        -- left. exists a, c, kd', b; auto.
    + intros c id. unfold set. destruct (Nat.eqb_spec cid c) as [->|N].
      * rewrite in_app_iff; simpl. intros [H|[<-|[]]].
        -- destruct (H5 c id H) as [L X]. split; [lia|]. intros Hi. apply Vi in Hi.
           destruct Hi as [Hi|Hi]; [|lia]. destruct (X Hi) as (kd' & Hk). exists kd'.
           apply in_or_app; auto.
        -- split; [lia|]. intros _. exists kd. rewrite H1. apply in_or_app; simpl; auto.
      * intros H. destruct (H5 c id H) as [L X]. split; [lia|]. intros Hi. apply Vi in Hi.
        destruct Hi as [Hi|Hi]; [|lia]. destruct (X Hi) as (kd' & Hk). exists kd'.
        apply in_or_app; auto.
    + intros id c kd' Hi Hs. apply Vi in Hi. apply in_app_or in Hs. unfold set.
      destruct Hs as [Hs|[Hs|[]]].
      * assert (L : id < m_made m).
        { assert (Q : In id (scheduled (m_log m))) by (apply in_scheduled; eauto).
          rewrite H2 in Q. apply in_seq in Q. lia. }
        destruct Hi as [Hi|Hi]; [|rewrite H1 in Hi; lia].
        pose proof (H6 id c kd' Hi Hs). destruct (cid =? c) eqn:E; auto.
        apply Nat.eqb_eq in E; subst. apply in_or_app; auto.
      * injection Hs as <- <- <-. rewrite Nat.eqb_refl. rewrite H1. apply in_or_app; simpl; auto.
    + auto.
    + intros id w' Hi Hx. rewrite Va in Hi.
      assert (Q : (In (id, w') (va m) \/ In (id, w') (m_active m)) \/ (id, w') = (vn m, w)) by tauto.
      clear Hi. destruct Q as [Hi|Hi].
      * apply wok_app; [repeat constructor|]. apply H8; auto.
      * injection Hi as -> ->. unfold w. rewrite H1, Sn. apply wok_new.
        intros e He. apply (Fr e He). auto.
  - (* cancel *)
    assert (V : vw (log (enqueue m (m_made m) (ACancel cid)) (ECancel cid)) =
      (remove_works (vc m cid) (va m), set (vc m) cid [], vn m)).
    { rewrite vw_log, vw_enqueue, vw_split. reflexivity. }
    constructor; unfold va, vc, vn; rewrite ?V; cbn [fst snd m_made log enqueue m_log m_active m_next].
    + auto.
    + rewrite scheduled_app; simpl. rewrite app_nil_r; auto.
    + rewrite ids_remove. apply increasing_filter; auto.
    + intros id. rewrite in_ids_remove, live_snoc. split.
      * intros [Hi Hn]. right. pose proof (proj1 (H4 id) Hi) as (a & c & kd & b & E & N1 & N2).
        exists a, c, kd, b. repeat split; auto; [|discriminate].
        intros X; injection X as ->. apply Hn. apply (H6 id c kd); auto.
        rewrite E. apply in_or_app; simpl; auto.
      * intros [(c & kd & E)|(a & c & kd & b & E & N1 & N2 & N3 & _)]; [discriminate|].
        assert (Hi : In id (ids (va m))) by (apply H4; exists a, c, kd, b; auto).
        split; auto. intros Hc. destruct (H5 cid id Hc) as [_ X]. destruct (X Hi) as (kd' & Hk).
        assert (Q : In (ESched id c kd) (m_log m)) by (rewrite E; apply in_or_app; simpl; auto).
        destruct (@in_sched_unique _ _ _ _ _ _ (nodup_log I) Hk Q) as [-> _]. congruence.
    + intros c id. unfold set. destruct (Nat.eqb_spec cid c) as [->|N]; [intros []|].
      intros H. destruct (H5 c id H) as [L X]. split; auto.
      rewrite in_ids_remove. intros [Hi _]. destruct (X Hi) as (kd & Hk). exists kd.
      apply in_or_app; auto.
    + intros id c kd. rewrite in_ids_remove. intros [Hi Hn] Hs.
      apply in_app_or in Hs. destruct Hs as [Hs|[Hs|[]]]; [|discriminate].
      pose proof (H6 id c kd Hi Hs). unfold set. destruct (Nat.eqb_spec cid c) as [->|N]; [tauto|auto].
    + auto.
    + intros id w Hi Hx. rewrite in_remove in Hi. apply wok_app; [repeat constructor|].
      apply H8; tauto.
  - (* the others do not matter *)
    apply Inv_log; [exact Logic.I|intros id; right; exact Logic.I|].
    constructor; unfold va, vc, vn; rewrite ?vw_enqueue, ?vw_split; assumption.
  - apply Inv_log; [exact Logic.I|intros id; right; exact Logic.I|].
    constructor; unfold va, vc, vn; rewrite ?vw_enqueue, ?vw_split; assumption.
  - apply Inv_log; [exact Logic.I|intros id; right; exact Logic.I|].
    constructor; unfold va, vc, vn; rewrite ?vw_enqueue, ?vw_split; assumption.
Qed.

(** *** Time *)

(** A task whose clock is brought to [n] by a tick at [t]. *)
Definition wcur (t n : nat) (w : work) : Prop :=
  match w with
  | WDelayed _ cur _ _ => later cur t = n
  | WRepeating _ _ cur _ _ _ => later cur t = n
  | _ => True
  end.

Lemma wcur_new n t kd k : t <= n -> wcur t n (hook n (new_work kd k)).
Proof. intros L. destruct kd; simpl; auto; rewrite !later_max; lia. Qed.

Record Good (tt : nat -> nat) (ex : nat -> Prop) (m : mach) : Prop := mkGood {
  g_inv : Inv ex m;
  g_snow : m_snow m = now_of (m_log m);
  g_fresh : fresh_ok m;
  g_ex : forall id, ex id -> id < m_made m;
  g_tt : forall id, tt id <= now_of (m_log m);
  g_cur : forall id w, In (id, w) (va m) \/ In (id, w) (m_active m) -> ~ ex id ->
    wcur (tt id) (now_of (m_log m)) w
}.

Lemma now_req l e : reqev e -> now_of (l ++ [e]) = now_of l.
Proof. intros R. rewrite now_app. apply (@reqs_now [e]). auto. Qed.

Lemma Good_perform tt ex m r : Good tt ex m -> Good tt ex (perform m r).
Proof.
  intros [I S F E T C].
  assert (LG : exists e, m_log (perform m r) = m_log m ++ [e] /\ reqev e)
    by (destruct r; eexists; split; reflexivity || exact Logic.I).
  destruct LG as (e & He & Re).
  assert (MD : m_made m <= m_made (perform m r)) by (destruct r; simpl; lia).
  assert (NW : now_of (m_log (perform m r)) = now_of (m_log m)) by (rewrite He; apply now_req; auto).
  constructor.
  - apply Inv_perform; auto.
  - rewrite NW, <- S. destruct r; reflexivity.
  - intros e' H id Hid. rewrite He in H. apply in_app_or in H. destruct H as [H|[<-|[]]].
    + apply (F e' H). lia.
    + apply reqev_foreign; auto.
  - intros id H. apply E in H. lia.
  - intros id; rewrite NW; auto.
  - intros id w H Hx. rewrite NW.
    assert (Q : (In (id, w) (va m) \/ In (id, w) (m_active m)) \/
      exists kd k, w = hook (m_snow m) (new_work kd k)).
    { assert (A : m_active (perform m r) = m_active m) by (destruct r; reflexivity).
      rewrite A in H. destruct H as [H|H]; [|auto].
      destruct r; unfold perform, va in H; rewrite vw_log, vw_enqueue, vw_split in H;
        cbn [view_one fst snd] in H; auto.
      - apply in_app_or in H. destruct H as [H|[H|[]]]; auto.
        right. injection H as _ <-. eauto.
      - apply in_remove in H. tauto. }
    destruct Q as [Q|(kd & k & ->)]; [apply C; auto|].
    rewrite S. apply wcur_new; auto.
Qed.

Lemma Good_performs tt ex rs : forall m, Good tt ex m -> Good tt ex (performs m rs).
Proof.
  induction rs as [|r rs IH]; intros m H; auto. apply IH. apply Good_perform; auto.
Qed.

Lemma Good_log tt ex m e : idle e -> (forall id, ex id \/ foreign id e) ->
  (forall t, e <> ETick t) -> Good tt ex m -> Good tt ex (log m e).
Proof.
  intros Id Fo NT [I S F E T C].
  assert (NW : now_of (m_log m ++ [e]) = now_of (m_log m)).
  { rewrite now_app. destruct e; simpl; auto. destruct (NT t); auto. }
  constructor; cbn [m_snow m_log m_made log] in *; rewrite ?NW; auto.
  - apply Inv_log; auto.
  - intros e' H id Hid. cbn [m_log log m_made] in *.
    apply in_app_or in H. destruct H as [H|[<-|[]]]; [apply (F e' H); auto|].
    destruct (Fo id) as [X|X]; auto. apply E in X. lia.
Qed.

Lemma Good_world tt ex m g : Good tt ex m -> Good tt ex (set_world m g).
Proof.
  intros [I S F E T C]. constructor; try assumption. apply Inv_world; auto.
Qed.

(** *** Calls of closures *)

Definition about (o : owner) (ex : nat -> Prop) : Prop :=
  match o with OWork id => ex id | OInv _ => True end.

(** [n] calls of closures belonging to [o], at time [t]. *)
Inductive evolves (o : owner) (t : nat) : nat -> mach -> mach -> Prop :=
| ev_nil : forall m, evolves o t 0 m m
| ev_cons : forall n m k m1 k' r m2,
    call run o k t m = (m1, k', r) -> evolves o t n m1 m2 -> evolves o t (S n) m m2.

Lemma call_fact o k t m m1 k' r : call run o k t m = (m1, k', r) ->
  same m m1 /\
  (exists es, m_log m1 = m_log m ++ ERan o t :: es /\ Forall reqev es) /\
  (forall tt ex, about o ex -> Good tt ex m -> Good tt ex m1).
Proof.
  unfold call. destruct (run k t (m_world m)) as [[[k1 d] g] rs].
  intros E; injection E as <- <- <-. split; [|split].
  - eapply same_trans; [|apply performs_same]. repeat split.
  - destruct (performs_log rs (set_world (log m (ERan o t)) g)) as (es & H & F).
    exists es. split; auto. rewrite H. cbn [m_log set_world log]. rewrite <- app_assoc; auto.
  - intros tt ex A Gd. apply Good_performs, Good_world, Good_log; auto; try discriminate.
    + simpl; auto.
    + intros id. destruct o; simpl; auto. destruct (Nat.eq_dec wid id) as [<-|]; auto.
Qed.

Definition mine (o : owner) (t : nat) (e : ev) : Prop := reqev e \/ e = ERan o t.

Lemma evolves_fact o t n m m' : evolves o t n m m' ->
  same m m' /\
  (exists es, m_log m' = m_log m ++ es /\ Forall (mine o t) es /\
    forall id, ran id es = match o with OWork j => if j =? id then n else 0 | _ => 0 end) /\
  (forall tt ex, about o ex -> Good tt ex m -> Good tt ex m').
Proof.
  induction 1 as [m|n m k m1 k' r m2 C E IH].
  - split; [apply same_refl|]. split; [|auto]. exists []. rewrite app_nil_r. repeat split; auto.
    intros id. destruct o; auto. destruct (wid =? id); auto.
  - apply call_fact in C. destruct C as (S1 & (es1 & L1 & F1) & G1).
    destruct IH as (S2 & (es2 & L2 & F2 & R2) & G2).
    split; [eapply same_trans; eauto|]. split; [|intros; apply G2; auto].
    exists (ERan o t :: es1 ++ es2). rewrite L2, L1, <- app_assoc. repeat split; auto.
    + constructor; [right; auto|]. apply Forall_app. split; auto.
      eapply Forall_impl; [|exact F1]. left; auto.
    + intros id. change (ERan o t :: es1 ++ es2) with ([ERan o t] ++ es1 ++ es2).
      rewrite !ran_app, R2, (ran_runs id es1). unfold runs_of. rewrite reqs_runs by auto.
      destruct o; simpl; auto. unfold ran; simpl. destruct (wid =? id); simpl; auto.
Qed.

Lemma mine_now o t es : Forall (mine o t) es -> forall n, now_from n es = n.
Proof.
  induction 1 as [|e es H _ IH]; intros; simpl; auto.
  destruct H as [H| ->]; auto. destruct e; simpl in H; try tauto; auto.
Qed.
Lemma mine_ticks o t es : Forall (mine o t) es -> forall n id, ticks_from n id es = [].
Proof.
  induction 1 as [|e es H _ IH]; intros; simpl; auto.
  destruct H as [H| ->]; auto. destruct e; simpl in H; try tauto; auto.
Qed.
Lemma mine_works o t es : Forall (mine o t) es -> works es = [].
Proof.
  induction 1 as [|e es H _ IH]; intros; simpl; auto.
  destruct H as [H| ->]; auto. destruct e; simpl in H; try tauto; auto.
Qed.
Lemma mine_runs id t es : Forall (mine (OWork id) t) es -> forall n,
  runs_from n id es = repeat n (ran id es).
Proof.
  unfold ran. induction 1 as [|e es H _ IH]; intros; simpl; auto.
  destruct H as [H| ->].
  - destruct e; simpl in H; try tauto; auto.
  - simpl. rewrite Nat.eqb_refl. simpl. f_equal. auto.
Qed.
Lemma mine_foreign id j t es : j <> id -> Forall (mine (OWork id) t) es -> Forall (foreign j) es.
Proof.
  intros N. apply Forall_impl. intros e [H| ->]; [apply reqev_foreign; auto|]. simpl; auto.
Qed.

(** The loop of repeating work. *)
Lemma div_step i c cur : 0 < i -> c + i <= cur -> (cur - c) / i = S ((cur - (c + i)) / i).
Proof.
  intros P L. replace (cur - c) with (cur - (c + i) + 1 * i) by lia.
  rewrite Nat.div_add by lia. lia.
Qed.
Lemma div_none i c cur : cur < c + i -> c <= cur -> (cur - c) / i = 0.
Proof. intros. apply Nat.div_small. lia. Qed.

Lemma repeating_fact : forall fuel o t i cap imm c cur k res ex m m' w' r,
  repeating run fuel o t i cap imm c cur k res ex m = Some (m', w', r) -> c <= cur ->
  let N := (cur - c) / i + (if imm then 1 else 0) in
  exists n imm' c' k', evolves o t n m m' /\ w' = WRepeating imm' c' cur i cap k' /\
  (0 < i -> n <= Nat.min (cap - ex) N) /\
  c' <= cur /\
  (r = false -> imm' = false /\ (0 < i -> n = Nat.min (cap - ex) N /\
     c' = c + i * ((cur - c) / i))).
Proof.
  induction fuel as [|f IH]; intros o t i cap imm c cur k res ex m m' w' r H L; simpl in H.
  - destruct (((c + i <=? cur) && negb res) || imm) eqn:B; [discriminate|].
    injection H as <- <- <-. apply orb_false_iff in B. destruct B as [B ->].
    exists 0, false, c, k. repeat split; try constructor; try lia.
    + rewrite H, andb_true_r in B. apply Nat.leb_gt in B. rewrite div_none by lia. simpl; lia.
    + rewrite H, andb_true_r in B. apply Nat.leb_gt in B. rewrite div_none by lia. lia.
  - destruct (((c + i <=? cur) && negb res) || imm) eqn:B.
    2:{ injection H as <- <- <-. apply orb_false_iff in B. destruct B as [B ->].
        exists 0, false, c, k. repeat split; try constructor; try lia.
        + rewrite H, andb_true_r in B. apply Nat.leb_gt in B. rewrite div_none by lia. simpl; lia.
        + rewrite H, andb_true_r in B. apply Nat.leb_gt in B. rewrite div_none by lia. lia. }
    set (X := if ex <? cap then _ else _) in H.
    assert (HX : exists e m1 k1 r1, X = (m1, k1, r1) /\ (r1 = false -> res = false) /\
      e = (if ex <? cap then 1 else 0) /\ forall n m2, evolves o t n m1 m2 -> evolves o t (e + n) m m2).
    { unfold X. destruct (ex <? cap).
      - destruct (call run o k t m) as [[m1 k1] r1] eqn:C. exists 1, m1, k1, (res || r1).
        repeat split; auto; [now intros E; apply orb_false_iff in E|].
        intros; econstructor; eauto.
      - exists 0, m, k, res. repeat split; auto. }
    destruct HX as (e & m1 & k1 & r1 & EX & R1 & He & EV). rewrite EX in H. clear EX X.
    destruct imm.
    + apply IH in H; auto. destruct H as (n & imm' & c' & k' & E & W & U & Y & Z).
      exists (e + n), imm', c', k'. repeat split; auto.
      * intros P. specialize (U P). destruct (Nat.ltb_spec ex cap); lia.
      * apply Z; auto.
      * destruct (Z H) as [_ Z']. destruct (Z' H0). destruct (Nat.ltb_spec ex cap); lia.
      * destruct (Z H) as [_ Z']. destruct (Z' H0); auto.
    + rewrite orb_false_r in B. apply andb_true_iff in B. destruct B as [B1 B2].
      apply Nat.leb_le in B1.
      apply IH in H; [|lia]. destruct H as (n & imm' & c' & k' & E & W & U & Y & Z).
      exists (e + n), imm', c', k'. repeat split; auto.
      * intros P. specialize (U P). rewrite (@div_step i c cur P B1). destruct (Nat.ltb_spec ex cap); lia.
      * apply Z; auto.
      * destruct (Z H) as [_ Z']. destruct (Z' H0). rewrite (@div_step i c cur H0 B1).
        destruct (Nat.ltb_spec ex cap); lia.
      * destruct (Z H) as [_ Z']. destruct (Z' H0). rewrite (@div_step i c cur H0 B1). lia.
Qed.

Lemma work_tick_evolves fuel o w t m m' w' r :
  (match w with WRepeating _ c cur _ _ _ => c <= later cur t | _ => True end) ->
  work_tick run fuel o w t m = Some (m', w', r) -> exists n, evolves o t n m m'.
Proof.
  destruct w; intros L; simpl.
  - destruct (on + d <=? later cur t).
    + destruct k; [destruct (call run o k t m) as [[m1 k1] r1] eqn:C|]; intros H;
        injection H as <- <- <-; eexists; repeat (econstructor; eauto).
    + intros H; injection H as <- <- <-; eexists; constructor.
  - destruct k; [destruct (call run o k t m) as [[m1 k1] r1] eqn:C|]; intros H;
      injection H as <- <- <-; eexists; repeat (econstructor; eauto).
  - intros H. apply repeating_fact in H; auto. destruct H as (n & _ & _ & _ & E & _). eauto.
  - destruct (call run o k t m) as [[m1 k1] r1] eqn:C. intros H; injection H as <- <- <-.
    eexists; repeat (econstructor; eauto).
  - destruct (call run o k t m) as [[m1 k1] r1] eqn:C. intros H; injection H as <- <- <-.
    eexists; repeat (econstructor; eauto).
Qed.

Lemma born_unique l id s1 c1 k1 s2 c2 k2 : NoDup (scheduled l) ->
  born l id s1 c1 k1 -> born l id s2 c2 k2 -> s1 = s2 /\ c1 = c2 /\ k1 = k2.
Proof.
  intros N (a1 & b1 & E1 & ->) (a2 & b2 & E2 & ->). subst l.
  eapply split_unique in E2; eauto. destruct E2 as (-> & -> & -> & _); auto.
Qed.

(** What the log says about a task, whether live or not. *)
Definition logok (j : nat) (l : list ev) : Prop :=
  forall s cid kd, born l j s cid kd ->
  match kd with
  | KDelayed d =>
      (runs_of j l = [] /\ (ticks_of j l <> [] -> last (ticks_of j l) 0 < s + d)) \/
      exists T, runs_of j l = [T] /\ s + d <= T
  | KImmediate => ran j l = match ticks_of j l with [] => 0 | _ => 1 end
  | KRepeating i imm cap => Forall (fun t => s <= t) (ticks_of j l) /\ (0 < i ->
      ran j l <= fires i (Nat.max 1 cap) s s (if imm then 1 else 0) (ticks_of j l))
  | _ => ran j l = length (ticks_of j l)
  end.
(** A task that is done. *)
Definition spent (j : nat) (l : list ev) : Prop :=
  forall s cid kd, born l j s cid kd ->
  match kd with KDelayed _ | KImmediate => ran j l = 1 | _ => True end.

Lemma born_app_inv l r j s cid kd : In j (scheduled l) -> NoDup (scheduled (l ++ r)) ->
  born (l ++ r) j s cid kd -> born l j s cid kd.
Proof.
  intros H N B. apply in_scheduled in H. destruct H as (c & k & H).
  apply in_split in H. destruct H as (a & b & E).
  assert (B' : born l j (now_of a) c k) by (exists a, b; auto).
  destruct (@born_unique _ _ _ _ _ _ _ _ N B (born_app r B')) as (-> & -> & ->). auto.
Qed.

Lemma logok_app j l r : NoDup (scheduled (l ++ r)) ->
  (~ In j (scheduled l) -> Forall (foreign j) l) ->
  Forall (foreign j) r -> logok j l -> logok j (l ++ r).
Proof.
  intros N Fr Fo H s cid kd B.
  assert (T : ticks_of j (l ++ r) = ticks_of j l)
    by (rewrite ticks_app, foreign_ticks, app_nil_r; auto).
  assert (R : runs_of j (l ++ r) = runs_of j l)
    by (rewrite runs_app, foreign_runs, app_nil_r; auto).
  destruct (in_dec Nat.eq_dec j (scheduled l)) as [I|I].
  - apply born_app_inv in B; auto. specialize (H s cid kd B). rewrite !ran_runs in *.
    rewrite T, R; auto.
  - specialize (Fr I). rewrite ran_runs, T, R. unfold ticks_of, runs_of.
    rewrite foreign_ticks, foreign_runs by auto. destruct kd; simpl; auto; try lia.
    left. split; auto. tauto.
Qed.
Lemma spent_app j l r : NoDup (scheduled (l ++ r)) -> In j (scheduled l) ->
  Forall (foreign j) r -> spent j l -> spent j (l ++ r).
Proof.
  intros N I Fo H s cid kd B. apply born_app_inv in B; auto. specialize (H s cid kd B).
  rewrite ran_app, (ran_runs j r). unfold runs_of. rewrite foreign_runs by auto.
  simpl. rewrite Nat.add_0_r. auto.
Qed.

Lemma last_default {A} : forall (l : list A) x d d', last (x :: l) d = last (x :: l) d'.
Proof.
  induction l as [|y l IH]; intros; auto.
  change (last (y :: l) d = last (y :: l) d'). apply IH.
Qed.
Lemma fires_snoc i cap s : forall ts prev bonus t,
  fires i cap s prev bonus (ts ++ [t]) =
  fires i cap s prev bonus ts +
  Nat.min cap ((t - s) / i - (last ts prev - s) / i +
               match ts with [] => bonus | _ => 0 end).
Proof.
  induction ts as [|x ts IH]; intros; cbn [app fires]; [simpl; lia|].
  rewrite IH. destruct ts as [|y ts].
  - cbn [fires last app]. lia.
  - rewrite (@last_default nat ts y x prev). change (last (x :: y :: ts) prev) with (last (y :: ts) prev).
    lia.
Qed.
Lemma last_snoc {A} (l : list A) x d : last (l ++ [x]) d = x.
Proof. induction l as [|y l IH]; simpl; auto. destruct (l ++ [x]) eqn:E; auto. destruct l; discriminate. Qed.

Lemma tick_local fuel id w t l (m m' : mach) w' r :
  wok id w l -> wcur t (now_of l) w -> m_log m = l ++ [EWork id] ->
  work_tick run fuel (OWork id) w t m = Some (m', w', r) ->
  NoDup (scheduled (m_log m')) ->
  exists n es, evolves (OWork id) t n m m' /\ m_log m' = l ++ EWork id :: es /\
    Forall (mine (OWork id) t) es /\ logok id (m_log m') /\
    (r = true -> spent id (m_log m')) /\ (r = false -> wok id w' (m_log m')) /\
    wcur 0 (now_of l) w'.
Proof.
  intros (s & cid & kd & B & W) C L H N.
  assert (EV : exists n, evolves (OWork id) t n m m' /\
    match w with
    | WDelayed on cur d (Some k) =>
        if on + d <=? later cur t then n = 1 /\ r = true /\ wcur 0 (now_of l) w'
        else n = 0 /\ r = false /\ w' = WDelayed on (later cur t) d (Some k)
    | WImmediate (Some k) => n = 1 /\ r = true /\ wcur 0 (now_of l) w'
    | WRepeating imm c cur i cap k =>
        c <= later cur t ->
        let N := (later cur t - c) / i + (if imm then 1 else 0) in
        (0 < i -> n <= Nat.min cap N) /\
        exists imm' c' k', w' = WRepeating imm' c' (later cur t) i cap k' /\ c' <= later cur t /\
          (r = false -> imm' = false /\ (0 < i -> n = Nat.min cap N /\
            c' = c + i * ((later cur t - c) / i)))
    | WContinuous last k => n = 1 /\ exists k', w' = WContinuous (later last t) k'
    | WInvoked k => n = 1 /\ exists k', w' = WInvoked k'
    | _ => True
    end).
  { destruct w as [on cur d [k|]|[k|]|imm c cur i cap k|lst k|k]; simpl in H, C.
    - destruct (on + d <=? later cur t).
      + destruct (call run (OWork id) k t m) as [[m1 k1] r1] eqn:CC.
        injection H as <- <- <-. exists 1. repeat split; auto.
        econstructor; eauto; constructor.
      + injection H as <- <- <-. exists 0. repeat split; auto. constructor.
    - destruct (on + d <=? later cur t); injection H as <- <- <-; exists 0; split; auto; constructor.
    - destruct (call run (OWork id) k t m) as [[m1 k1] r1] eqn:CC.
      injection H as <- <- <-. exists 1. repeat split; auto. econstructor; eauto; constructor.
    - injection H as <- <- <-. exists 0. repeat split; auto. constructor.
    - destruct (le_dec c (later cur t)) as [Lc|Lc].
      + apply repeating_fact in H; auto. destruct H as (n & imm' & c' & k' & E & W' & U & Y & Z).
        exists n. split; auto. intros _. rewrite Nat.sub_0_r in *. split; auto.
        exists imm', c', k'. auto.
      + exfalso. destruct kd; auto. destruct W as (_ & _ & _ & _ & Q & _).
        rewrite later_max in Lc. lia.
    - destruct (call run (OWork id) k t m) as [[m1 k1] r1] eqn:CC.
      injection H as <- <- <-. exists 1. repeat split; eauto. econstructor; eauto; constructor.
    - destruct (call run (OWork id) k t m) as [[m1 k1] r1] eqn:CC.
      injection H as <- <- <-. exists 1. repeat split; eauto. econstructor; eauto; constructor. }
  destruct EV as (n & EV & SP). exists n.
  pose proof (evolves_fact EV) as (_ & (es & Le & Fe & Re) & _). exists es.
  rewrite L, <- app_assoc in Le. simpl in Le.
  split; [exact EV|]. split; [exact Le|]. split; [exact Fe|].
  specialize (Re id). rewrite Nat.eqb_refl in Re.
  assert (T : ticks_of id (m_log m') = ticks_of id l ++ [now_of l]).
  { rewrite Le, ticks_app. simpl. rewrite Nat.eqb_refl. f_equal. f_equal.
    eapply mine_ticks; eauto. }
  assert (R : runs_of id (m_log m') = runs_of id l ++ repeat (now_of l) n).
  { rewrite Le, runs_app. simpl. f_equal. rewrite <- Re. eapply mine_runs; eauto. }
  assert (Rn : ran id (m_log m') = ran id l + n).
  { rewrite !ran_runs, R, app_length, repeat_length; auto. }
  assert (B' : born (m_log m') id s cid kd) by (rewrite Le; apply born_app; auto).
  assert (TN : ticks_of id (m_log m') <> []) by (rewrite T; destruct (ticks_of id l); discriminate).
  assert (UQ : forall s1 c1 k1, born (m_log m') id s1 c1 k1 -> s1 = s /\ k1 = kd).
  { intros s1 c1 k1 B1. destruct (@born_unique _ _ _ _ _ _ _ _ N B1 B') as (? & _ & ?); auto. }
  clear H EV Le.
  destruct w as [on cur d [k|]|[k|]|imm c cur i cap k|lst k|k], kd as [d'| |i' imm' cap'| | ];
    try contradiction; simpl in C.
  - (* delayed *)
    destruct W as (-> & -> & _ & W1 & W2 & W3). rewrite C in SP.
    destruct (Nat.leb_spec (s + d') (now_of l)) as [Du|Du].
    + destruct SP as (-> & -> & SP). rewrite W1 in R. simpl in R.
      repeat split; auto; try discriminate.
      * intros s1 c1 k1 B1. apply UQ in B1. destruct B1 as [-> ->]. right. eauto.
      * intros _ s1 c1 k1 B1. apply UQ in B1. destruct B1 as [-> ->]. rewrite ran_runs, R; auto.
    + destruct SP as (-> & -> & ->). simpl in R. rewrite app_nil_r, W1 in R.
      repeat split; try discriminate.
      * intros s1 c1 k1 B1. apply UQ in B1. destruct B1 as [-> ->]. left. rewrite T, last_snoc. auto.
      * intros _. exists s, cid, (KDelayed d'). split; auto. rewrite T, last_snoc.
        repeat split; eauto.
  - destruct W as (_ & _ & (? & ?) & _). discriminate.
  - (* immediate *)
    destruct W as (_ & W1). destruct SP as (-> & -> & SP). rewrite W1 in R. simpl in R.
    repeat split; auto; try discriminate.
    + intros s1 c1 k1 B1. apply UQ in B1. destruct B1 as [-> ->]. rewrite ran_runs, R.
      destruct (ticks_of id (m_log m')); tauto.
    + intros _ s1 c1 k1 B1. apply UQ in B1. destruct B1 as [-> ->]. rewrite ran_runs, R; auto.
  - destruct W as ((? & ?) & _). discriminate.
  - (* repeating *)
    destruct W as (-> & W1 & W2 & W3 & W4 & W5 & W7 & W6). rewrite C in SP.
    assert (CN : cur <= now_of l) by (rewrite <- C, later_max; lia).
    specialize (SP ltac:(lia)). destruct SP as (U & imm1 & c1 & k1 & -> & Y & Z).
    assert (BN : (if imm then 1 else 0) = match ticks_of id l with [] => if imm' then 1 else 0 | _ => 0 end)
      by (rewrite W5; destruct imm', (ticks_of id l); auto).
    assert (DV : 0 < i' -> (now_of l - s) / i' = (cur - s) / i' + (now_of l - c) / i').
    { intros P. destruct (W6 P) as [-> _].
      replace (now_of l - s) with (now_of l - (s + i' * ((cur - s) / i')) + (cur - s) / i' * i').
      - rewrite Nat.div_add by lia. lia.
      - pose proof (Nat.mul_div_le (cur - s) i'). lia. }
    assert (W8 : Forall (fun t => s <= t) (ticks_of id (m_log m'))).
    { rewrite T. apply Forall_app. split; auto. constructor; auto. lia. }
    repeat split.
    + intros s1 c2 k2 B1. apply UQ in B1. destruct B1 as [-> ->]. split; [auto|]. intros P.
      rewrite Rn, T, <- W1, fires_snoc, <- BN. destruct (W6 P) as [Wc ->].
      specialize (U P). rewrite <- W2, (DV P).
      replace ((cur - s) / i' + (now_of l - c) / i' - (cur - s) / i') with ((now_of l - c) / i') by lia.
      lia.
    + intros _ s1 c2 k2 B1. apply UQ in B1. destruct B1 as [-> ->]. auto.
    + intros E. destruct (Z E) as [-> Z']. exists s, cid, (KRepeating i' imm' cap'). split; auto.
      rewrite T, last_snoc. repeat split; auto; try lia.
      * destruct (ticks_of id l); simpl; rewrite andb_false_r; auto.
      * rewrite <- T. auto.
      * destruct (Z' H) as [-> _]. destruct (W6 H) as [Wc Wr].
        rewrite Rn, Wr, fires_snoc, <- BN, <- W2, (DV H).
        f_equal. f_equal. lia.
  - (* continuous *)
    destruct SP as (-> & k' & ->).
    assert (Q : ran id (m_log m') = length (ticks_of id (m_log m')))
      by (rewrite Rn, T, app_length; simpl; lia).
    repeat split; auto.
    + intros s1 c1 k1 B1. apply UQ in B1. destruct B1 as [-> ->]. auto.
    + intros _ s1 c1 k1 B1. apply UQ in B1. destruct B1 as [-> ->]. auto.
    + intros _. exists s, cid, KContinuous. auto.
  - destruct SP as (-> & k' & ->).
    assert (Q : ran id (m_log m') = length (ticks_of id (m_log m')))
      by (rewrite Rn, T, app_length; simpl; lia).
    repeat split; auto.
    + intros s1 c1 k1 B1. apply UQ in B1. destruct B1 as [-> ->]. auto.
    + intros _ s1 c1 k1 B1. apply UQ in B1. destruct B1 as [-> ->]. auto.
    + intros _. exists s, cid, KInvoked. auto.
Qed.
End Sched.
