(** Proofs about whole ticks and histories of the executor. *)
From Verif Require Import Base SchedModel SchedSpec SchedProofs.
Set Implicit Arguments.

(** Events within one tick. *)
Definition seg (t : nat) (e : ev) : Prop :=
  reqev e \/ (exists o, e = ERan o t) \/ (exists j, e = EWork j) \/ (exists j, e = EDone j).

Lemma seg_now t es : Forall (seg t) es -> forall n, now_from n es = n.
Proof.
  induction 1 as [|e es H _ IH]; intros; simpl; auto.
  destruct H as [H|[(o & ->)|[(j & ->)|(j & ->)]]]; auto. destruct e; simpl in H; tauto || auto.
Qed.
Lemma mine_seg o t e : mine o t e -> seg t e.
Proof. intros [H| ->]; [left; auto|right; left; eauto]. Qed.

(** Tasks finish, and their closures run, only after they were ticked. *)
Definition tidy (q : list ev) : Prop :=
  forall id a b, q = a ++ EDone id :: b \/ (exists t, q = a ++ ERan (OWork id) t :: b) -> In id (works a).

Lemma tidy_nil : tidy [].
Proof. intros id a b [H|(t & H)]; destruct a; discriminate. Qed.
Lemma split_app {A} (x : A) : forall l r a b, l ++ r = a ++ x :: b ->
  (exists b', l = a ++ x :: b' /\ b = b' ++ r) \/ (exists a', a = l ++ a' /\ r = a' ++ x :: b).
Proof.
  induction l as [|y l IH]; intros r a b H; simpl in H.
  - right. exists a. auto.
  - destruct a as [|z a]; simpl in H; injection H as -> H.
    + left. exists l. auto.
    + apply IH in H. destruct H as [(b' & -> & ->)|(a' & -> & ->)].
      * left. exists b'. auto.
      * right. exists a'. auto.
Qed.
Lemma tidy_app l r : tidy l ->
  (forall id a b, r = a ++ EDone id :: b \/ (exists t, r = a ++ ERan (OWork id) t :: b) ->
     In id (works l) \/ In id (works a)) -> tidy (l ++ r).
Proof.
  intros T H id a b X.
  assert (Q : (exists b', l = a ++ EDone id :: b' \/ exists t, l = a ++ ERan (OWork id) t :: b') \/
    (exists a', a = l ++ a' /\ (r = a' ++ EDone id :: b \/ exists t, r = a' ++ ERan (OWork id) t :: b))).
  { destruct X as [X|(t & X)]; apply split_app in X; destruct X as [(b' & X & _)|(a' & X & Y)]; eauto 7. }
  destruct Q as [(b' & Q)|(a' & -> & Q)].
  - eapply T; eauto.
  - rewrite works_app, in_app_iff. eapply H; eauto.
Qed.
Lemma tidy_app2 l r : tidy l -> tidy r -> tidy (l ++ r).
Proof. intros T H. apply tidy_app; auto. intros; right; eapply H; eauto. Qed.
Lemma tidy_mine id t es : Forall (mine (OWork id) t) es -> tidy (EWork id :: es).
Proof.
  intros F. apply (@tidy_app [EWork id]).
  - intros j a b [H|(u & H)]; destruct a as [|x [|y a]]; discriminate.
  - intros j a b H. left. simpl. left.
    assert (Q : exists e, In e es /\ (e = EDone j \/ exists u, e = ERan (OWork j) u)).
    { destruct H as [->|(u & ->)]; eexists; (split; [apply in_or_app; right; left; reflexivity|eauto]). }
    destruct Q as (e & Q1 & Q2). rewrite Forall_forall in F. destruct (F e Q1) as [R| ->].
    + destruct Q2 as [->|(u & ->)]; destruct R.
    + destruct Q2 as [Q2|(u & Q2)]; [discriminate|]. injection Q2 as -> ->; auto.
Qed.
Lemma tidy_mine_inv i t es : Forall (mine (OInv i) t) es -> tidy es.
Proof.
  intros F j a b H. exfalso.
  assert (Q : exists e, In e es /\ (e = EDone j \/ exists u, e = ERan (OWork j) u)).
  { destruct H as [->|(u & ->)]; eexists; (split; [apply in_or_app; right; left; reflexivity|eauto]). }
  destruct Q as (e & Q1 & Q2). rewrite Forall_forall in F. destruct (F e Q1) as [R| ->].
  + destruct Q2 as [->|(u & ->)]; destruct R.
  + destruct Q2 as [Q2|(u & Q2)]; discriminate.
Qed.
Lemma tidy_dones l fin : tidy l -> (forall id, In id fin -> In id (works l)) -> tidy (l ++ map EDone fin).
Proof.
  intros T H. apply tidy_app; auto. intros id a b X. left. apply H.
  assert (Q : In (EDone id) (map EDone fin) \/ exists u, In (ERan (OWork id) u) (map EDone fin)).
  { destruct X as [->|(u & ->)]; [left|right; exists u]; apply in_or_app; simpl; auto. }
  destruct Q as [Q|(u & Q)]; apply in_map_iff in Q; destruct Q as (x & E & Q); [|discriminate].
  injection E as ->. auto.
Qed.

Definition none : nat -> Prop := fun _ => False.

(** What the log says about tasks, live or done, those in [fin] about to be removed. *)
Definition LK (fin : list nat) (l : list ev) : Prop :=
  (forall j, logok j l) /\
  (forall id, In (EDone id) l \/ In id fin -> In id (scheduled l) /\ spent id l).

Section Exec.
Context {K G : Type}.
Variable run : K -> nat -> G -> K * bool * G * list (req K).
Notation mach := (mach K G).
Notation work := (work K).

Lemma repeating_evolves : forall fuel o t i cap imm c cur k res ex m m' w' r,
  repeating run fuel o t i cap imm c cur k res ex m = Some (m', w', r) ->
  exists n, evolves run o t n m m'.
Proof.
  induction fuel as [|f IH]; intros o t i cap imm c cur k res ex m m' w' r H; simpl in H;
    destruct (((c + i <=? cur) && negb res) || imm) eqn:B; try discriminate;
    try (injection H as <- <- <-; exists 0; constructor).
  destruct (ex <? cap).
  - destruct (call run o k t m) as [[m1 k1] r1] eqn:C.
    destruct imm; apply IH in H; destruct H as (n & E); exists (S n); econstructor; eauto.
  - destruct imm; apply IH in H; auto.
Qed.

Lemma tick_evolves fuel o w t m m' w' r :
  work_tick run fuel o w t m = Some (m', w', r) -> exists n, evolves run o t n m m'.
Proof.
  destruct w; try (intros H; eapply work_tick_evolves; eauto; exact Logic.I).
  simpl. apply repeating_evolves.
Qed.

(** ** One round *)

Definition tt (t : nat) (dn : list nat) : nat -> nat := fun id => if mem id dn then 0 else t.

Lemma in_find id (w : work) l : find_work id l = Some w -> In (id, w) l.
Proof.
  unfold find_work. intros H. destruct (find (fun x => fst x =? id) l) as [[j x]|] eqn:E; [|discriminate].
  injection H as <-. apply find_some in E. destruct E as [E1 E2]. simpl in E2.
  apply Nat.eqb_eq in E2; subst; auto.
Qed.
Lemma find_in id (l : list (nat * work)) : In id (ids l) -> exists w, find_work id l = Some w.
Proof.
  unfold find_work. intros H. destruct (find (fun x => fst x =? id) l) as [[j x]|] eqn:E; [simpl; eauto|].
  exfalso. unfold ids in H. apply in_map_iff in H. destruct H as ([j x] & E1 & E2). simpl in E1; subst.
  eapply find_none in E; eauto. simpl in E. rewrite Nat.eqb_refl in E. discriminate.
Qed.
Lemma in_put j x id (w : work) l : In (j, x) (put_work id w l) ->
  (j = id /\ x = w) \/ (j <> id /\ In (j, x) l).
Proof.
  unfold put_work. rewrite in_map_iff. intros ([i y] & E & H). simpl in E.
  destruct (Nat.eqb_spec i id) as [->|N]; injection E as <- <-; auto.
Qed.

Lemma vw_put (m : mach) id (w : work) : id < m_next m ->
  vw (set_active m (put_work id w (m_active m))) = (put_work id w (va m), vc m, vn m).
Proof.
  intros L. unfold vw. cbn [m_active set_active m_cmap m_next m_queue].
  rewrite view_put by auto. change (view_all (m_active m, m_cmap m, m_next m) (m_queue m)) with (vw m).
  rewrite vw_split; auto.
Qed.

Lemma Inv_put ex (m : mach) id w : id < m_next m ->
  (~ ex id -> wok id w (m_log m)) ->
  Inv (fun j => ex j \/ j = id) m -> Inv ex (set_active m (put_work id w (m_active m))).
Proof.
  intros L W [H1 H2 H3 H4 H5 H6 H7 H8].
  constructor; unfold va, vc, vn; rewrite ?(vw_put m w L); cbn [fst snd]; rewrite ?ids_put;
    cbn [m_made set_active m_log m_active m_next]; rewrite ?ids_put; auto.
  intros j x Hj Hx.
  assert (Q : (j = id /\ x = w) \/ (j <> id /\ (In (j, x) (va m) \/ In (j, x) (m_active m)))).
  { destruct Hj as [Hj|Hj]; apply in_put in Hj; tauto. }
  destruct Q as [[-> ->]|[N Q]]; auto. apply H8; auto. tauto.
Qed.

Lemma LK_app fin l r : LK fin l -> NoDup (scheduled (l ++ r)) ->
  (forall j, ~ In j (scheduled l) -> Forall (foreign j) l) ->
  (forall j, Forall (foreign j) r \/ (logok j (l ++ r) /\ ~ In j fin /\ ~ In (EDone j) l)) ->
  (forall j, ~ In (EDone j) r) -> LK fin (l ++ r).
Proof.
  intros [K1 K2] N Fr H D. split.
  - intros j. destruct (H j) as [F|[O _]]; auto. apply logok_app; auto.
  - intros id Hid.
    assert (Q : In (EDone id) l \/ In id fin).
    { destruct Hid as [Hid|Hid]; auto. apply in_app_or in Hid. destruct Hid as [|Hid]; auto.
      destruct (D _ Hid). }
    destruct (K2 id Q) as [I S]. rewrite scheduled_app, in_app_iff. split; auto.
    apply spent_app; auto. destruct (H id) as [F|(_ & F1 & F2)]; tauto.
Qed.

Lemma fresh_foreign tt0 ex (m : mach) : Good tt0 ex m ->
  forall j, ~ In j (scheduled (m_log m)) -> Forall (foreign j) (m_log m).
Proof.
  intros Gd j H. apply Forall_forall. intros e He. apply (g_fresh Gd e He).
  rewrite (i_sched (g_inv Gd)), in_seq in H. lia.
Qed.

Lemma mine_nodone o t es j : Forall (mine o t) es -> ~ In (EDone j) es.
Proof.
  intros F H. rewrite Forall_forall in F. destruct (F _ H) as [X|X]; [destruct X|discriminate].
Qed.

Definition rest_same (m m' : mach) : Prop :=
  m_snow m' = m_snow m /\ m_now m' = m_now m /\ m_next m' = m_next m /\
  ids (m_active m') = ids (m_active m) /\ m_cmap m' = m_cmap m /\ m_inv m' = m_inv m /\
  m_invoked m' = m_invoked m /\ m_ticked m' = m_ticked m /\ m_depth m' = m_depth m.

Lemma tick_ids_ok : forall l fuel t dn fin (m m' : mach) fin',
  tick_ids run fuel t l fin m = Some (m', fin') ->
  Good (tt t dn) (fun id => In id fin) m -> LK fin (m_log m) ->
  t <= now_of (m_log m) ->
  (forall id, In id l -> In id (ids (m_active m)) /\ ~ In id dn /\ ~ In (EDone id) (m_log m)) ->
  NoDup l -> (forall id, In id fin -> In id dn) ->
  Good (tt t (dn ++ l)) (fun id => In id fin') m' /\ LK fin' (m_log m') /\ rest_same m m' /\
  (exists es, m_log m' = m_log m ++ es /\ works es = l /\ Forall (seg t) es /\
     (forall j, ~ In (EDone j) es) /\ tidy es) /\
  (forall id, In id fin' -> In id fin \/ In id l).
Proof.
  induction l as [|id l IH]; intros fuel t dn fin m m' fin' H Gd Lk Lt Hl Nd Fd; cbn [tick_ids] in H.
  - injection H as <- <-. rewrite app_nil_r.
    split; [exact Gd|]. split; [exact Lk|]. split; [repeat split|]. split; [|auto].
    exists []. rewrite app_nil_r. repeat (split; [auto; fail|]). apply tidy_nil.
  - destruct (Hl id (or_introl eq_refl)) as (Ha & Hd & Hn).
    destruct (find_in _ _ Ha) as (w & Fw). rewrite Fw in H.
    destruct (work_tick run fuel (OWork id) w t (log m (EWork id))) as [[[m1 w1] r]|] eqn:T; [|discriminate].
    pose proof (in_find _ _ Fw) as Iw.
    assert (Nf : ~ In id fin) by (intros X; apply Hd, Fd; auto).
    pose proof (g_inv Gd) as Iv.
    assert (LN : id < m_next m) by (apply (i_next Iv); auto).
    assert (W : wok id w (m_log m)) by (apply (i_wok Iv); auto).
    assert (C : wcur t (now_of (m_log m)) w).
    { pose proof (g_cur Gd id w (or_intror Iw) Nf) as C. unfold tt in C.
      destruct (mem id dn) eqn:M; auto. apply mem_in in M; tauto. }
    assert (Mk : id < m_made m).
    { destruct W as (s & cid & kd & B & _). apply born_in in B.
      assert (Q : In id (scheduled (m_log m))) by (apply in_scheduled; eauto).
      rewrite (i_sched Iv) in Q. apply in_seq in Q. lia. }
    (* the task runs *)
    set (ex1 := fun j => In j fin \/ j = id).
    assert (G0 : Good (tt t dn) ex1 (log m (EWork id))).
    { apply Good_log; try discriminate.
      - exact Logic.I.
      - intros j. destruct (Nat.eq_dec j id) as [->|N]; [left; right; auto|]. right; simpl; auto.
      - destruct Gd as [g1 g2 g3 g4 g5 g6]. constructor; auto.
        + apply (@Inv_ex K G (fun j => In j fin)); [left; auto|auto].
        + intros j [Hj| ->]; auto.
        + intros j x Hj Hx. apply g6; auto. intros X; apply Hx; left; auto. }
    destruct (tick_evolves _ _ _ _ _ T) as (n0 & EV0).
    pose proof (evolves_fact EV0) as (Sm & _ & Gk).
    specialize (Gk (tt t dn) ex1 (or_intror eq_refl) G0).
    assert (N1 : NoDup (scheduled (m_log m1))) by (eapply nodup_log; apply (g_inv Gk)).
    destruct (@tick_local K G run fuel id w t (m_log m) (log m (EWork id)) m1 w1 r W C eq_refl T N1)
      as (n & es & EV & Le & Fe & Ok & Sp & Wk & Wc).
    destruct Sm as (M1 & M2 & M3 & M4 & M5 & M6 & M7 & M8 & M9).
    cbn [log m_snow m_now m_next m_active m_cmap m_inv m_invoked m_ticked m_depth] in *.
    assert (NW : now_of (m_log m1) = now_of (m_log m)).
    { rewrite Le, now_app. simpl. eapply mine_now; eauto. }
    set (fin1 := if r then fin ++ [id] else fin) in *.
    set (m2 := set_active m1 (put_work id w1 (m_active m1))) in *.
    assert (L2 : m_log m2 = m_log m1) by reflexivity.
    assert (V2 : vw m2 = (put_work id w1 (va m1), vc m1, vn m1)).
    { apply vw_put. rewrite M3; auto. }
    assert (G2 : Good (tt t (dn ++ [id])) (fun j => In j fin1) m2).
    { destruct Gk as [g1 g2 g3 g4 g5 g6]. constructor; auto.
      - apply Inv_put.
        + rewrite M3; auto.
        + intros X. apply Wk. unfold fin1 in X. destruct r; auto. exfalso. apply X.
          apply in_or_app; simpl; auto.
        + apply (@Inv_ex K G ex1); auto. intros j [Hj| ->]; [|right; auto].
          left. unfold fin1. destruct r; auto. apply in_or_app; auto.
      - intros j Hj. apply g4. unfold fin1 in Hj. unfold ex1. destruct r; auto.
        apply in_app_or in Hj. destruct Hj as [|[|[]]]; auto.
      - intros j. rewrite L2, NW. unfold tt. destruct (mem j (dn ++ [id])); lia.
      - intros j x Hj Hx. rewrite L2, NW.
        assert (Q : (j = id /\ x = w1) \/ (j <> id /\ (In (j, x) (va m1) \/ In (j, x) (m_active m1)))).
        { unfold va in Hj at 1. rewrite V2 in Hj. cbn [fst] in Hj.
          destruct Hj as [Hj|Hj]; apply in_put in Hj; tauto. }
        destruct Q as [[-> ->]|[N Q]].
        + unfold tt. assert (X : mem id (dn ++ [id]) = true) by (apply mem_in, in_or_app; simpl; auto).
          rewrite X; auto.
        + assert (X : tt t (dn ++ [id]) j = tt t dn j).
          { unfold tt. destruct (mem j dn) eqn:M.
            - apply mem_in in M. assert (Y : mem j (dn ++ [id]) = true) by (apply mem_in, in_or_app; auto).
              rewrite Y; auto.
            - apply mem_notin in M. assert (Y : mem j (dn ++ [id]) = false).
              { apply mem_notin. rewrite in_app_iff. simpl. intros [|[|[]]]; auto. }
              rewrite Y; auto. }
          rewrite X, <- NW. apply g6; auto. intros [Y|Y]; [|tauto]. apply Hx.
          unfold fin1. destruct r; auto. apply in_or_app; auto. }
    assert (K2 : LK fin1 (m_log m2)).
    { rewrite L2.
      assert (K1 : LK fin (m_log m1)).
      { rewrite Le in *. apply LK_app; auto.
        - eapply fresh_foreign; eauto.
        - intros j. destruct (Nat.eq_dec j id) as [->|N]; [right; auto|].
          left. constructor; [simpl; auto|]. eapply mine_foreign; eauto.
        - intros j [X|X]; [discriminate|]. eapply mine_nodone; eauto. }
      split; [apply K1|]. intros j Hj.
      unfold fin1 in Hj. destruct r; [|apply K1; auto].
      rewrite in_app_iff in Hj. simpl in Hj.
      assert (Q : (In (EDone j) (m_log m1) \/ In j fin) \/ j = id) by intuition auto.
      destruct Q as [Q| ->]; [apply K1; auto|]. split; auto.
      rewrite (i_sched (g_inv Gk)). apply in_seq.
      pose proof (g_ex Gk id (or_intror eq_refl)). lia. }
    assert (R2 : rest_same m m2).
    { unfold rest_same. repeat (split; [auto; fail|]).
      split; [|repeat (split; auto)]. unfold m2. cbn [m_active set_active]. rewrite ids_put, M4; auto. }
    apply IH with (dn := dn ++ [id]) in H; auto.
    + destruct H as (Q1 & Q2 & Q3 & (es2 & Q4 & Q5 & Q6 & Q7 & Q9) & Q8).
      rewrite <- app_assoc in Q1. simpl in Q1.
      split; [exact Q1|]. split; [exact Q2|]. split; [|split].
      * unfold rest_same in *. intuition congruence.
      * exists (EWork id :: es ++ es2). rewrite Q4, L2, Le, <- app_assoc. simpl.
        split; auto. rewrite works_app, (mine_works Fe), Q5. split; auto. split; [|split].
        -- constructor; [right; right; left; eauto|]. apply Forall_app. split; auto.
           eapply Forall_impl; [|exact Fe]. apply mine_seg.
        -- intros j [X|X]; [discriminate|]. apply in_app_or in X. destruct X as [X|X].
           ++ eapply mine_nodone; eauto.
           ++ eapply Q7; eauto.
        -- apply (@tidy_app2 (EWork id :: es)); auto. eapply tidy_mine; eauto.
      * intros j Hj. apply Q8 in Hj. unfold fin1 in Hj. simpl. destruct Hj as [Hj|]; auto.
        destruct r; auto. apply in_app_or in Hj. destruct Hj as [|[|[]]]; auto.
    + rewrite L2, NW; auto.
    + intros j Hj. destruct (Hl j (or_intror Hj)) as (A1 & A2 & A3).
      inversion Nd as [|? ? B1 B2]; subst. cbn [m_active m2 set_active]. rewrite ids_put, M4.
      split; auto. split.
      * rewrite in_app_iff. simpl. intros [|[->|[]]]; auto.
      * rewrite L2, Le, in_app_iff. simpl. intros [X|[X|X]]; auto; [discriminate|].
        eapply mine_nodone; eauto.
    + inversion Nd; auto.
    + intros j Hj. apply in_or_app. unfold fin1 in Hj. destruct r; [|left; auto].
      apply in_app_or in Hj. destruct Hj as [|[|[]]]; simpl; auto.
Qed.

(** *** Removing finished tasks *)

Lemma live_dones id fin : forall l,
  live id (l ++ map EDone fin) <-> live id l /\ ~ In id fin.
Proof.
  induction fin as [|j fin IH] using rev_ind; intros l; simpl.
  - rewrite app_nil_r. tauto.
  - rewrite map_app, app_assoc. simpl. rewrite live_snoc, in_app_iff. simpl. split.
    + intros [(c & kd & E)|(a & c & kd & b & E & N1 & N2 & N3 & N4)]; [discriminate|].
      assert (Q : live id (l ++ map EDone fin)) by (exists a, c, kd, b; auto).
      apply IH in Q. destruct Q as [Q1 Q2]. split; auto. intros [|[->|[]]]; auto.
    + intros [H1 H2]. assert (Q : live id (l ++ map EDone fin)) by (apply IH; tauto).
      destruct Q as (a & c & kd & b & E & N1 & N2). right. exists a, c, kd, b.
      repeat split; auto; [discriminate|]. intros X; injection X as ->. tauto.
Qed.

Lemma fold_dones : forall fin (m : mach),
  fold_left (fun m id => log m (EDone id)) fin m =
  {| m_snow := m_snow m; m_queue := m_queue m; m_made := m_made m; m_now := m_now m;
     m_next := m_next m; m_active := m_active m; m_cmap := m_cmap m; m_inv := m_inv m;
     m_invoked := m_invoked m; m_ticked := m_ticked m; m_depth := m_depth m;
     m_world := m_world m; m_log := m_log m ++ map EDone fin |}.
Proof.
  induction fin as [|j fin IH]; intros m; simpl.
  - rewrite app_nil_r. destruct m; auto.
  - rewrite IH. cbn. rewrite <- app_assoc; auto.
Qed.

Lemma dones_foreign j fin : Forall (foreign j) (map EDone fin).
Proof. induction fin; simpl; constructor; simpl; auto. Qed.
Lemma dones_scheduled fin : scheduled (map EDone fin) = [].
Proof. induction fin; simpl; auto. Qed.
Lemma dones_works fin : works (map EDone fin) = [].
Proof. induction fin; simpl; auto. Qed.
Lemma dones_seg t fin : Forall (seg t) (map EDone fin).
Proof. induction fin; simpl; constructor; auto. right; right; right; eauto. Qed.
Lemma dones_sched fin l id c kd : In (ESched id c kd) (l ++ map EDone fin) <-> In (ESched id c kd) l.
Proof.
  rewrite in_app_iff, in_map_iff. split; auto. intros [|(x & E & _)]; auto. discriminate.
Qed.

Lemma Good_finish tt0 fin (m : mach) : Good tt0 (fun id => In id fin) m ->
  (forall id, In id fin -> id < m_next m) ->
  Good tt0 none (fold_left (fun m id => log m (EDone id)) fin
                   (set_active m (remove_works fin (m_active m)))).
Proof.
  intros [I g2 g3 g4 g5 g6] L. rewrite fold_dones.
  set (m' := {| m_snow := _ |}).
  assert (V : vw m' = (remove_works fin (va m), vc m, vn m)).
  { unfold vw, m'. cbn [m_active set_active m_cmap m_next m_queue].
    rewrite view_remove by auto.
    change (view_all (m_active m, m_cmap m, m_next m) (m_queue m)) with (vw m).
    rewrite vw_split; auto. }
  assert (LG : m_log m' = m_log m ++ map EDone fin) by reflexivity.
  assert (NW : now_of (m_log m') = now_of (m_log m)).
  { rewrite LG, now_app. apply (@seg_now 0). apply dones_seg. }
  assert (IN : forall id w, In (id, w) (va m') \/ In (id, w) (m_active m') ->
    (In (id, w) (va m) \/ In (id, w) (m_active m)) /\ ~ In id fin).
  { intros id w. unfold va. rewrite V. cbn [fst m_active m' set_active]. rewrite !in_remove.
    change (fst (fst (vw m))) with (va m). tauto. }
  destruct I as [H1 H2 H3 H4 H5 H6 H7 H8].
  constructor.
  - constructor; try rewrite LG.
    + unfold vn. rewrite V. auto.
    + rewrite scheduled_app, dones_scheduled, app_nil_r. auto.
    + unfold va. rewrite V. cbn [fst]. rewrite ids_remove. apply increasing_filter; auto.
    + intros id. unfold va. rewrite V. cbn [fst]. rewrite in_ids_remove, live_dones, H4. tauto.
    + intros cid id. unfold vc, vn, va. rewrite V. cbn [fst snd]. intros H.
      destruct (H5 cid id H) as [A B]. split; auto. rewrite in_ids_remove. intros [Hi _].
      destruct (B Hi) as (kd & Hk). exists kd. apply dones_sched; auto.
    + intros id cid kd. unfold vc, va. rewrite V. cbn [fst snd]. rewrite in_ids_remove, dones_sched.
      intros [Hi _] Hs. eapply H6; eauto.
    + intros id. cbn [m_active m' set_active m_next]. rewrite in_ids_remove. intros [Hi _]; auto.
    + intros id w Hi _. apply IN in Hi. destruct Hi as [Hi Hn].
      apply wok_app; [apply dones_foreign|]. apply H8; auto.
  - rewrite NW. exact g2.
  - intros e He id Hid. rewrite LG in He. apply in_app_or in He. destruct He as [He|He].
    + apply (g3 e He); auto.
    + pose proof (dones_foreign id fin) as F. rewrite Forall_forall in F. auto.
  - intros id [].
  - intros id; rewrite NW; auto.
  - intros id w Hi _. apply IN in Hi. rewrite NW. apply g6; tauto.
Qed.

Lemma LK_finish fin l : LK fin l -> NoDup (scheduled l) ->
  (forall j, ~ In j (scheduled l) -> Forall (foreign j) l) ->
  LK [] (l ++ map EDone fin).
Proof.
  intros [K1 K2] N Fr.
  assert (N' : NoDup (scheduled (l ++ map EDone fin)))
    by (rewrite scheduled_app, dones_scheduled, app_nil_r; auto).
  split.
  - intros j. apply logok_app; auto. apply dones_foreign.
  - intros id [H|[]].
    assert (Q : In (EDone id) l \/ In id fin).
    { apply in_app_or in H. destruct H as [|H]; auto. apply in_map_iff in H.
      destruct H as (x & E & H). injection E as ->. auto. }
    destruct (K2 id Q) as [A B]. rewrite scheduled_app, in_app_iff. split; auto.
    apply spent_app; auto. apply dones_foreign.
Qed.

(** *** tick_scheduled *)

Lemma due_in (m : mach) id : In id (due m) <-> In id (ids (m_active m)) /\ ~ In id (m_ticked m).
Proof. unfold due. rewrite filter_In, negb_true_iff, mem_notin. tauto. Qed.

Lemma tick_scheduled_ok fuel t (m m' : mach) b :
  tick_scheduled run fuel t m = Some (m', b) ->
  Good (tt t (m_ticked m)) none m -> LK [] (m_log m) -> t <= now_of (m_log m) ->
  m_queue m = [] -> (forall id, In id (ids (m_active m)) -> ~ In (EDone id) (m_log m)) ->
  Good (tt t (m_ticked m')) none m' /\ LK [] (m_log m') /\
  m_ticked m' = m_ticked m ++ due m /\ b = match due m with [] => true | _ => false end /\
  (forall id, In id (ids (m_active m')) -> In id (ids (m_active m)) /\ ~ In (EDone id) (m_log m')) /\
  m_snow m' = m_snow m /\ m_now m' = m_now m /\ m_next m' = m_next m /\
  m_inv m' = m_inv m /\ m_invoked m' = m_invoked m /\ m_depth m' = m_depth m /\
  (due m = [] -> m' = m) /\
  (exists es, m_log m' = m_log m ++ es /\ works es = due m /\ Forall (seg t) es /\ tidy es).
Proof.
  unfold tick_scheduled. intros H Gd Lk Lt Q Nd.
  destruct (tick_ids run fuel t (due m) [] m) as [[m1 fin]|] eqn:T; [|discriminate].
  injection H as <- <-.
  assert (ND : NoDup (due m)).
  { apply increasing_nodup. unfold due. apply increasing_filter.
    pose proof (i_sort (g_inv Gd)) as S. unfold va, vw in S. rewrite Q in S. exact S. }
  assert (HD : forall id, In id (due m) -> In id (ids (m_active m)) /\
    ~ In id (m_ticked m) /\ ~ In (EDone id) (m_log m)).
  { intros id Hid. apply due_in in Hid. destruct Hid. repeat split; auto. }
  destruct (@tick_ids_ok _ fuel t (m_ticked m) _ _ _ _ T Gd Lk Lt HD ND (fun _ X => match X with end))
    as (G1 & L1 & R1 & (es & E1 & E2 & E3 & E4 & E5) & F1).
  destruct R1 as (M1 & M2 & M3 & M4 & M5 & M6 & M7 & M8 & M9).
  assert (FN : forall id, In id fin -> id < m_next m1).
  { intros id Hid. apply F1 in Hid. destruct Hid as [[]|Hid]. apply due_in in Hid.
    rewrite M3. apply (i_next (g_inv Gd)). tauto. }
  set (m2 := set_ticked m1 (m_ticked m1 ++ due m)).
  assert (G2 : Good (tt t (m_ticked m ++ due m)) (fun id => In id fin) m2).
  { destruct G1 as [g1 g2 g3 g4 g5 g6]. constructor; auto.
    destruct g1; constructor; auto. }
  pose proof (@Good_finish _ fin m2 G2 FN) as G3.
  change (m_active m2) with (m_active m1) in *.
  rewrite fold_dones in *. set (m3 := {| m_snow := _ |}) in *.
  assert (TK : m_ticked m3 = m_ticked m ++ due m) by (unfold m3; cbn; rewrite M8; auto).
  split; [rewrite TK; exact G3|].
  split.
  { change (m_log m3) with (m_log m2 ++ map EDone fin). apply LK_finish; auto.
    - eapply nodup_log. apply (g_inv G2).
    - eapply fresh_foreign; eauto. }
  split; [exact TK|]. split; [auto|].
  assert (LG : m_log m3 = m_log m ++ es ++ map EDone fin).
  { unfold m3. cbn. rewrite E1, <- app_assoc; auto. }
  split.
  { intros id. unfold m3 at 1. cbn [m_active set_active]. rewrite in_ids_remove, M4. intros [A B].
    split; auto. rewrite LG, !in_app_iff, in_map_iff. intros [X|[X|(x & X & Y)]].
    - eapply Nd; eauto.
    - eapply E4; eauto.
    - injection X as ->. auto. }
  repeat split; auto.
  - intros D. rewrite D in T. simpl in T. injection T as <- <-. unfold m3. cbn. rewrite D, !app_nil_r.
    assert (RM : remove_works [] (m_active m) = m_active m).
    { unfold remove_works. clear. induction (m_active m) as [|x l IH]; simpl; auto. f_equal; exact IH. }
    rewrite RM. destruct m; auto.
  - exists (es ++ map EDone fin). split; auto. rewrite works_app, dones_works, app_nil_r. split; auto.
    split; [apply Forall_app; split; auto; apply dones_seg|].
    apply tidy_dones; auto. intros id X. apply F1 in X. rewrite E2. destruct X as [[]|X]; auto.
Qed.

(** *** Invoked tasks *)

Lemma mine_inv_foreign i t es j : Forall (mine (OInv i) t) es -> Forall (foreign j) es.
Proof. apply Forall_impl. intros e [H| ->]; [apply reqev_foreign; auto|]. simpl; auto. Qed.

Lemma Good_inv tt0 ex (m : mach) f : Good tt0 ex m -> Good tt0 ex (set_inv m f).
Proof. intros [[h1 h2 h3 h4 h5 h6 h7 h8] g2 g3 g4 g5 g6]. constructor; auto. constructor; auto. Qed.
Lemma Good_invoked tt0 ex (m : mach) f : Good tt0 ex m -> Good tt0 ex (set_invoked m f).
Proof. intros [[h1 h2 h3 h4 h5 h6 h7 h8] g2 g3 g4 g5 g6]. constructor; auto. constructor; auto. Qed.

Lemma run_invoked_ok : forall l fuel t tt0 (m m' : mach),
  run_invoked run fuel t l m = Some m' ->
  Good tt0 none m -> LK [] (m_log m) ->
  Good tt0 none m' /\ LK [] (m_log m') /\
  m_snow m' = m_snow m /\ m_now m' = m_now m /\ m_next m' = m_next m /\
  m_active m' = m_active m /\ m_invoked m' = m_invoked m /\
  m_ticked m' = m_ticked m /\ m_depth m' = m_depth m /\
  (exists es, m_log m' = m_log m ++ es /\ works es = [] /\ Forall (seg t) es /\
     (forall j, ~ In (EDone j) es) /\ tidy es).
Proof.
  induction l as [|i l IH]; intros fuel t tt0 m m' H Gd Lk; cbn [run_invoked] in H.
  - injection H as <-. split; [auto|]. split; [auto|]. repeat (split; [auto; fail|]).
    exists []. rewrite app_nil_r. repeat (split; [auto; fail|]). apply tidy_nil.
  - destruct (m_inv m i) as [w|]; [|eapply IH; eauto].
    destruct (work_tick run fuel (OInv i) w t m) as [[[m1 w1] r]|] eqn:T; [|discriminate].
    destruct (tick_evolves _ _ _ _ _ T) as (n0 & EV).
    pose proof (evolves_fact EV) as (Sm & (es & Le & Fe & _) & Gk).
    specialize (Gk tt0 none Logic.I Gd).
    destruct Sm as (M1 & M2 & M3 & M4 & M5 & M6 & M7 & M8 & M9).
    assert (L1 : LK [] (m_log m1)).
    { rewrite Le. apply LK_app; auto.
      - rewrite <- Le. eapply nodup_log. apply (g_inv Gk).
      - eapply fresh_foreign; eauto.
      - intros j. left. eapply mine_inv_foreign; eauto.
      - intros j. eapply mine_nodone; eauto. }
    eapply IH in H; [|apply Good_inv; eauto|auto].
    destruct H as (Q1 & Q2 & Q3 & Q4 & Q5 & Q6 & Q7 & Q8 & Q9 & es2 & E1 & E2 & E3 & E4 & E5).
    cbn [m_snow m_now m_next m_active m_invoked m_ticked m_depth m_log set_inv] in *.
    split; [auto|]. split; [auto|].
    rewrite Q3, Q4, Q5, Q6, Q7, Q8, Q9. repeat (split; [auto; fail|]).
    exists (es ++ es2). rewrite E1, Le, <- app_assoc. split; auto.
    rewrite works_app, (mine_works Fe), E2. split; auto. split; [|split].
    + apply Forall_app; split; auto. eapply Forall_impl; [|exact Fe]. apply mine_seg.
    + intros j X. apply in_app_or in X. destruct X as [X|X].
      * eapply mine_nodone; eauto.
      * eapply E4; eauto.
    + apply tidy_app2; auto. eapply tidy_mine_inv; eauto.
Qed.

(** *** Draining *)

Lemma drain_good tt0 t (m : mach) :
  Good tt0 none (set_sched m (later (m_snow m) t) (m_queue m)) ->
  Good tt0 none (fst (drain t m)).
Proof.
  unfold drain. cbn [fst]. intros Gd.
  pose proof (drain_fields (m_queue m) (set_sched m (later (m_snow m) t) [])) as D.
  cbv zeta in D. set (m1 := fold_left _ _ _) in *.
  destruct D as (D1 & D2 & D3 & D4 & D5 & D6 & D7 & D8 & D9).
  cbn [m_active m_cmap m_next set_sched m_snow m_queue m_made m_now m_ticked m_depth m_world m_log] in *.
  assert (V : vw m1 = vw m).
  { unfold vw at 1. rewrite D3, D1. reflexivity. }
  destruct Gd as [[h1 h2 h3 h4 h5 h6 h7 h8] g2 g3 g4 g5 g6].
  set (m0 := set_sched m (later (m_snow m) t) (m_queue m)) in *.
  assert (V0 : vw m0 = vw m) by reflexivity.
  assert (L0 : m_log m0 = m_log m) by reflexivity.
  assert (AV : m_active m1 = va m1).
  { unfold va. rewrite V. unfold vw. rewrite <- D1. reflexivity. }
  assert (NV : m_next m1 = vn m1).
  { unfold vn. rewrite V. unfold vw. rewrite <- D1. reflexivity. }
  unfold va, vc, vn in *. rewrite V0 in *. rewrite V in *. rewrite L0 in *.
  change (m_made m0) with (m_made m) in *. change (m_snow m0) with (later (m_snow m) t) in *.
  constructor; [|rewrite D2, D9; auto| |intros id []|rewrite D9; auto|].
  - constructor; unfold va, vc, vn; rewrite ?V, ?D9, ?D4; auto.
    + intros id. rewrite AV, NV. intros H. rewrite h1. apply h4 in H. apply live_in in H.
      rewrite h2 in H. apply in_seq in H. lia.
    + intros id w. rewrite AV. intros H N. apply h8; tauto.
  - intros e He id Hid. rewrite D9 in He. rewrite D4 in Hid. apply (g3 e He). auto.
  - intros id w. unfold va. rewrite V, AV, D9. intros H N. apply g6; tauto.
Qed.

Lemma view_new : forall q a c n id, In id (ids (fst (fst (view_all (a, c, n) q)))) ->
  In id (ids (a : list (nat * work))) \/ n <= id.
Proof.
  induction q as [|x q IH]; intros a c n id H; simpl in H; auto.
  destruct x; simpl in H; apply IH in H; auto.
  - unfold ids in *. rewrite map_app, in_app_iff in H. simpl in H.
    destruct H as [[H|[<-|[]]]|H]; auto; right; lia.
  - rewrite in_ids_remove in H. tauto.
Qed.
Lemma va_new (m : mach) id : In id (ids (va m)) -> In id (ids (m_active m)) \/ m_next m <= id.
Proof. unfold va, vw. apply view_new. Qed.

(** *** A whole tick *)

(** The machine before a round of a tick [t], which started when the log was [p], tasks
    [base] were waiting, and [made0] had been made. *)
Record Rd (p : list ev) (base : list nat) (made0 t : nat) (m : mach) : Prop := mkRd {
  r_good : Good (tt t (m_ticked m)) none (set_sched m (later (m_snow m) t) (m_queue m));
  r_log : exists q, m_log m = p ++ ETick t :: q /\ works q = m_ticked m /\ Forall (seg t) q /\ tidy q;
  r_lk : LK [] (m_log m);
  r_inc : increasing (m_ticked m);
  r_next : forall id, In id (m_ticked m) -> id < m_next m;
  r_new : forall id j, In id (ids (va m)) -> ~ In id (m_ticked m) -> In j (m_ticked m) -> j < id;
  r_done : forall id, In (EDone id) (m_log m) -> id < m_next m;
  r_act : forall id, In id (ids (m_active m)) -> ~ In (EDone id) (m_log m);
  r_from : forall id, In id (ids (va m)) \/ In id (m_ticked m) -> In id base \/ made0 <= id;
  r_made : made0 <= m_made m;
  r_inv : m_invoked m = [];
  r_now : m_now m = now_of (m_log m)
}.

Lemma set_sched_same t (m : mach) : t <= m_snow m -> set_sched m (later (m_snow m) t) (m_queue m) = m.
Proof. intros H. rewrite later_max, Nat.max_l by auto. destruct m; auto. Qed.

Lemma round_ok p base made0 fuel t (m m2 m3 : mach) b :
  Rd p base made0 t m ->
  tick_scheduled run fuel t (fst (drain t m)) = Some (m2, b) ->
  execute_invoked run fuel t m2 = Some m3 ->
  Rd p base made0 t m3 /\
  (forall id, In id (ids (m_active m3)) -> In id (m_ticked m3)) /\
  (forall id, In id (ids (va m)) \/ In id (m_ticked m) -> In id (m_ticked m3)) /\
  m_snow m3 = now_of (m_log m3) /\ t <= m_snow m3 /\ m_depth m3 = m_depth m /\
  (exists es, m_log m3 = m_log m ++ es) /\
  (b && negb (snd (drain t m)) = true -> m_queue m3 = [] /\ m_log m3 = m_log m).
Proof.
  intros R T X.
  pose proof (drain_good _ (r_good R)) as G1.
  pose proof (drain_fields (m_queue m) (set_sched m (later (m_snow m) t) [])) as D.
  cbv zeta in D. unfold drain in *. cbn [fst snd] in *. set (m1 := fold_left _ _ _) in *.
  destruct D as (D1 & D2 & D3 & D4 & D5 & D6 & D7 & D8 & D9).
  cbn [m_active m_cmap m_next set_sched m_snow m_queue m_made m_now m_ticked m_depth m_world m_log] in *.
  assert (AV : m_active m1 = va m).
  { unfold va, vw. rewrite <- D1. reflexivity. }
  assert (NV : m_next m1 = vn m).
  { unfold vn, vw. rewrite <- D1. reflexivity. }
  assert (VM : vn m = m_made m).
  { apply (i_made (g_inv (r_good R))). }
  rewrite <- D6 in G1.
  destruct (r_log R) as (q & Lq & Wq & Sq & Dq).
  assert (Lt : t <= now_of (m_log m1)).
  { rewrite D9, Lq, now_app. simpl. rewrite (seg_now Sq). lia. }
  assert (MN : m_next m <= m_made m).
  { rewrite <- VM. unfold vn, vw. clear. generalize (m_active m), (m_cmap m), (m_next m).
    induction (m_queue m) as [|x q IH]; intros a c n; simpl; auto.
    destruct x; simpl; try apply IH. eapply Nat.le_trans; [|apply IH]. lia. }
  assert (A1 : forall id, In id (ids (m_active m1)) -> ~ In (EDone id) (m_log m1)).
  { intros id. rewrite AV, D9. intros H1 H2. apply va_new in H1. destruct H1 as [H1|H1].
    - eapply (r_act R); eauto.
    - apply (r_done R) in H2. lia. }
  destruct (@tick_scheduled_ok fuel t m1 m2 b T G1) as
    (G2 & L2 & T2 & B2 & A2 & N1 & N2 & N3 & N4 & N5 & N6 & N7 & es & E1 & E2 & E3 & E4); auto.
  { rewrite D9. apply (r_lk R). }
  unfold execute_invoked in X. pose proof X as X0.
  eapply run_invoked_ok in X; [|apply Good_invoked; eauto|auto].
  destruct X as (G3 & L3 & Q1 & Q2 & Q3 & Q4 & Q5 & Q6 & Q7 & es2 & F1 & F2 & F3 & F4 & F5).
  cbn [m_snow m_now m_next m_active m_invoked m_ticked m_depth m_log set_invoked] in *.
  assert (LG : m_log m3 = m_log m ++ es ++ es2).
  { rewrite F1, E1, D9, <- app_assoc; auto. }
  assert (LQ : m_log m3 = p ++ ETick t :: q ++ es ++ es2).
  { rewrite LG, Lq, <- app_assoc. auto. }
  assert (NW : now_of (m_log m3) = now_of (m_log m)).
  { rewrite LG, now_app, now_from_app, (seg_now E3), (seg_now F3); auto. }
  assert (DU : forall id, In id (due m1) <-> In id (ids (va m)) /\ ~ In id (m_ticked m)).
  { intros id. rewrite due_in, AV, D6. tauto. }
  assert (TK : m_ticked m3 = m_ticked m ++ due m1) by (rewrite Q6, T2, D6; auto).
  assert (TI : forall id, In id (m_ticked m3) <-> In id (ids (va m)) \/ In id (m_ticked m)).
  { intros id. rewrite TK, in_app_iff, DU.
    destruct (in_dec Nat.eq_dec id (m_ticked m)); tauto. }
  assert (SN : m_snow m3 = now_of (m_log m3)) by (apply (g_snow G3)).
  assert (TS : t <= m_snow m3).
  { rewrite SN, NW, <- D9. auto. }
  assert (NX : m_next m3 = m_made m) by (rewrite Q3, N3, NV, VM; auto).
  assert (AC : forall id, In id (ids (m_active m3)) -> In id (ids (va m)) /\ ~ In (EDone id) (m_log m2)).
  { intros id. rewrite Q4. intros H. apply A2 in H. rewrite AV in H. auto. }
  assert (TL : forall id, In id (m_ticked m3) -> id < m_next m3).
  { intros id H. rewrite NX. apply TI in H. destruct H as [H|H].
    - pose proof (in_va_lt _ (g_inv (r_good R)) H) as Z. exact Z.
    - apply (r_next R) in H. lia. }
  assert (MM : m_made m <= m_made m3).
  { pose proof (i_made (g_inv G3)) as Y. rewrite <- Y, <- NX. unfold vn, vw. clear.
    generalize (m_active m3), (m_cmap m3), (m_next m3).
    induction (m_queue m3) as [|x q IH]; intros a c n; simpl; auto.
    destruct x; simpl; try apply IH. eapply Nat.le_trans; [|apply IH]. lia. }
  split; [|split; [|split; [|split; [|split; [|split; [|split]]]]]]; auto.
  - constructor; auto.
    + rewrite set_sched_same by auto. rewrite Q6. auto.
    + exists (q ++ es ++ es2). split; auto. split.
      * rewrite !works_app, Wq, E2, F2, app_nil_r, TK; auto.
      * rewrite !Forall_app. split; [auto|]. apply tidy_app2; auto. apply tidy_app2; auto.
    + rewrite TK. apply increasing_app. split; [apply (r_inc R)|]. split.
      * unfold due. apply increasing_filter.
        change (map fst (m_active m1)) with (ids (m_active m1)). rewrite AV.
        apply (i_sort (g_inv (r_good R))).
      * intros x y Hx Hy. apply DU in Hy. eapply (r_new R); eauto; tauto.
    + intros id j H1 H2 H3. apply va_new in H1. destruct H1 as [H1|H1].
      * exfalso. apply H2, TI. left. apply AC; auto.
      * apply TL in H3. lia.
    + intros id. rewrite F1, in_app_iff. intros [H|H]; [|destruct (F4 _ H)].
      rewrite NX. destruct (proj2 L3 id) as [Y _]; [left; rewrite F1; apply in_or_app; auto|].
      rewrite E1, D9, in_app_iff in H.
      destruct H as [H|H]; [apply (r_done R) in H; lia|].
      assert (Z : In id (m_ticked m3)).
      { rewrite TK. apply in_or_app. right. rewrite <- E2. apply in_split in H.
        destruct H as (x & y & H). specialize (E4 id x y (or_introl H)). rewrite H, works_app.
        apply in_or_app; auto. }
      apply TL in Z. lia.
    + intros id H1. apply AC in H1. rewrite F1, in_app_iff. intros [H|H]; [tauto|destruct (F4 _ H)].
    + intros id [H|H].
      * apply va_new in H. destruct H as [H|H].
        -- apply (r_from R). left. apply AC; auto.
        -- right. rewrite NX in H. pose proof (r_made R). lia.
      * apply (r_from R). apply TI; auto.
    + pose proof (r_made R). lia.
    + rewrite Q2, N2, D5, NW. apply (r_now R).
  - intros id H. apply TI. left. apply AC; auto.
  - intros id H. apply TI; auto.
  - rewrite Q7, N6, D7; auto.
  - eauto.
  - intros H. apply andb_true_iff in H. destruct H as [H1 H2].
    rewrite B2 in H1. destruct (due m1) eqn:DE; [|discriminate].
    destruct (m_queue m) eqn:QE; [|discriminate].
    rewrite (N7 eq_refl) in X0.
    assert (M1 : m1 = set_sched m (later (m_snow m) t) []) by reflexivity.
    rewrite M1 in X0. cbn [m_invoked set_sched] in X0. rewrite (r_inv R) in X0. cbn in X0.
    injection X0 as <-. auto.
Qed.

(** The machine between calls. *)
Record Bd (m : mach) : Prop := mkBd {
  b_good : Good (fun _ => 0) none m;
  b_lk : LK [] (m_log m);
  b_done : forall id, In (EDone id) (m_log m) -> id < m_next m;
  b_act : forall id, In id (ids (m_active m)) -> ~ In (EDone id) (m_log m);
  b_inv : m_invoked m = [];
  b_now : m_now m = now_of (m_log m)
}.

Lemma Bd_boot d g : Bd (boot d g : mach).
Proof.
  assert (I : Inv none (boot d g : mach)).
  { constructor; cbn; auto; try tauto.
    intros id. split; [tauto|]. intros (a & c & kd & b & E & _). destruct a; discriminate. }
  constructor; [constructor; [exact I|auto|intros e []|intros id []|auto|intros id w [[]|[]]]| | | |auto|auto].
  - split.
    + intros j s c kd B. apply born_in in B. destruct B.
    + intros id [[]|[]].
  - intros id [].
  - intros id [].
Qed.

Lemma Bd_good_tick t (m : mach) : Bd m ->
  Good (fun _ => t) none
    (set_sched (log (set_ticked (set_now m (later (m_now m) t)) []) (ETick t))
       (later (m_snow m) t) (m_queue m)).
Proof.
  intros [[[h1 h2 h3 h4 h5 h6 h7 h8] g2 g3 g4 g5 g6] Lk Dn Ac Iv Nw].
  set (m0 := set_sched _ _ _).
  assert (V : vw m0 = vw m) by reflexivity.
  assert (L : m_log m0 = m_log m ++ [ETick t]) by reflexivity.
  assert (N : now_of (m_log m0) = Nat.max (now_of (m_log m)) t) by (rewrite L, now_app; auto).
  assert (F : forall id, Forall (foreign id) [ETick t]) by (repeat constructor).
  constructor.
  - constructor; unfold va, vc, vn; rewrite ?V, ?L; auto.
    + rewrite scheduled_app. simpl. rewrite app_nil_r. auto.
    + intros id. rewrite live_idle by exact Logic.I. apply h4.
    + intros cid id H. destruct (h5 cid id H) as [A B]. split; auto. intros H'.
      destruct (B H') as (kd & Hk). exists kd. apply in_or_app; auto.
    + intros id cid kd H H'. apply in_app_or in H'. destruct H' as [H'|[H'|[]]]; [|discriminate].
      eapply h6; eauto.
    + intros id w H H'. apply wok_app; auto.
  - rewrite N. unfold m0. cbn [m_snow set_sched]. rewrite g2, later_max. auto.
  - intros e He id Hid. rewrite L in He. apply in_app_or in He. destruct He as [He|[<-|[]]]; [|exact Logic.I].
    apply (g3 e He id Hid).
  - intros id [].
  - intros id. rewrite N. lia.
  - intros id w. unfold va. rewrite V, N. intros H _. specialize (g6 id w H (fun x => x)).
    destruct w; simpl in *; auto; rewrite later_max in *; lia.
Qed.

Lemma Rd_begin t (m : mach) : Bd m ->
  Rd (m_log m) (ids (va m)) (m_made m) t
    (log (set_ticked (set_now m (later (m_now m) t)) []) (ETick t)).
Proof.
  intros B. set (m0 := log _ _).
  assert (L : m_log m0 = m_log m ++ [ETick t]) by reflexivity.
  constructor.
  - exact (Bd_good_tick t B).
  - exists []. simpl. repeat (split; [auto; fail|]). apply tidy_nil.
  - rewrite L. apply LK_app; [apply (b_lk B)| | | |].
    + rewrite scheduled_app. simpl. rewrite app_nil_r. eapply nodup_log. apply (g_inv (b_good B)).
    + eapply fresh_foreign. apply (b_good B).
    + intros j. left. repeat constructor.
    + intros j [X|[]]. discriminate.
  - exact Logic.I.
  - intros id [].
  - intros id j _ _ [].
  - intros id. rewrite L, in_app_iff. intros [H|[H|[]]]; [|discriminate]. apply (b_done B); auto.
  - intros id H. rewrite L, in_app_iff. intros [H'|[H'|[]]]; [|discriminate].
    eapply (b_act B); eauto.
  - intros id [H|[]]. left. exact H.
  - auto.
  - apply (b_inv B).
  - rewrite L, now_app. cbn. rewrite later_max, (b_now B). auto.
Qed.

(** What one tick of the executor does. *)
Definition ticks_well (t : nat) (m m' : mach) : Prop :=
  Bd m' /\ m_queue m' = [] /\ m_depth m' = m_depth m /\
  exists q, m_log m' = m_log m ++ ETick t :: q /\ Forall (seg t) q /\ increasing (works q) /\
    (forall id, live id (m_log m) -> In id (works q)) /\
    (forall id, In id (works q) -> live id (m_log m) \/ In id (scheduled q)) /\
    (forall id, live id (m_log m') -> In id (works q)) /\
    tidy q.

Lemma rounds_end p base made0 t (m : mach) :
  Rd p base made0 t m -> (forall id, In id (ids (m_active m)) -> In id (m_ticked m)) ->
  m_queue m = [] -> t <= m_snow m ->
  Bd m.
Proof.
  intros R A Q S.
  pose proof (r_good R) as Gd. rewrite set_sched_same in Gd by auto.
  assert (V : va m = m_active m) by (unfold va, vw; rewrite Q; auto).
  constructor; try apply R.
  destruct Gd as [I g2 g3 g4 g5 g6]. constructor; auto.
  - intros; lia.
  - intros id w H N. specialize (g6 id w H N).
    assert (T : tt t (m_ticked m) id = 0).
    { unfold tt. assert (E : mem id (m_ticked m) = true).
      { apply mem_in, A. rewrite V in H. unfold ids. apply in_map_iff. exists (id, w). tauto. }
      rewrite E; auto. }
    rewrite T in g6. auto.
Qed.

Lemma rounds_ok : forall n fuel t p base made0 (m m' : mach),
  Rd p base made0 t m -> rounds run n fuel t m = Fine m' ->
  Rd p base made0 t m' /\ Bd m' /\ m_queue m' = [] /\ m_depth m' = m_depth m /\
  (forall id, In id (ids (va m)) \/ In id (m_ticked m) -> In id (m_ticked m')) /\
  (forall id, In id (ids (va m')) -> In id (m_ticked m')).
Proof.
  induction n as [|n IH]; intros fuel t p base made0 m m' R H; cbn [rounds] in H;
    rewrite (surjective_pairing (drain t m)) in H;
    destruct (tick_scheduled run fuel t (fst (drain t m))) as [[m2 b]|] eqn:T; try discriminate;
    destruct (execute_invoked run fuel t m2) as [m3|] eqn:X; try discriminate;
    destruct (round_ok _ R T X) as (R3 & A3 & K3 & S3 & T3 & D3 & _ & Q3);
    destruct (b && negb (snd (drain t m))) eqn:B; try discriminate.
  1,2: injection H as <-; destruct (Q3 eq_refl) as [Q _];
    (split; [auto|]); (split; [eapply rounds_end; eauto|]);
    (split; [auto|]); (split; [auto|]); (split; [auto|]);
    intros id; unfold va, vw; rewrite Q; apply A3.
  destruct (IH _ _ _ _ _ _ _ R3 H) as (I1 & I2 & I3 & I4 & I5 & I6).
  split; [auto|]. split; [auto|]. split; [auto|]. split; [congruence|]. split; auto.
Qed.

Lemma tick_to_ok fuel t (m m' : mach) : Bd m -> tick_to run fuel t m = Fine m' -> ticks_well t m m'.
Proof.
  intros B H. unfold tick_to in H. pose proof (Rd_begin t B) as R0.
  destruct (rounds_ok _ fuel R0 H) as (R & B' & Q & D & Kp & A).
  split; [auto|]. split; [auto|]. split; [auto|].
  destruct (r_log R) as (q & Lq & Wq & Sq & Dq). exists q.
  pose proof (g_inv (b_good B)) as Iv. pose proof (g_inv (b_good B')) as Iv'.
  split; [auto|]. split; [auto|]. rewrite Wq. split; [apply (r_inc R)|].
  split; [|split; [|split]].
  - intros id L. apply Kp. left. apply (i_live Iv). auto.
  - intros id Hid. destruct (r_from R id (or_intror Hid)) as [L|L].
    + left. apply (i_live Iv); auto.
    + right. assert (S : In id (scheduled (m_log m'))).
      { rewrite (i_sched Iv'). apply in_seq.
        pose proof (r_next R id Hid) as X. pose proof (i_made Iv') as Y.
        unfold vn, vw in Y. rewrite Q in Y. cbn in Y. lia. }
      rewrite Lq, scheduled_app, in_app_iff in S. destruct S as [S|S]; auto.
      rewrite (i_sched Iv) in S. apply in_seq in S. lia.
  - intros id L. apply A. apply (i_live Iv'). auto.
  - auto.
Qed.

Lemma Bd_perform (m : mach) r : Bd m -> Bd (perform m r).
Proof.
  intros [Gd Lk Dn Ac Iv Nw].
  pose proof (Good_perform run r Gd) as G'.
  destruct (perform_same m r) as (M1 & M2 & M3 & M4 & M5 & M6 & M7 & M8 & M9).
  assert (L : exists e, m_log (perform m r) = m_log m ++ [e] /\ reqev e).
  { destruct r; cbn; eexists; split; eauto; exact Logic.I. }
  destruct L as (e & L & Re).
  assert (ND : forall id, In (EDone id) (m_log (perform m r)) -> In (EDone id) (m_log m)).
  { intros id. rewrite L, in_app_iff. intros [|[->|[]]]; auto. destruct Re. }
  constructor; auto.
  - rewrite L. apply LK_app; auto.
    + rewrite <- L. eapply nodup_log. apply (g_inv G').
    + eapply fresh_foreign; eauto.
    + intros j. left. constructor; auto. apply reqev_foreign; auto.
    + intros j [->|[]]. destruct Re.
  - intros id H. rewrite M3. auto.
  - intros id. rewrite M4. intros H H'. eapply Ac; eauto.
  - congruence.
  - rewrite M2, Nw, L, now_req; auto.
Qed.

Lemma Bd_world (m : mach) g : Bd m -> Bd (set_world m g).
Proof. intros [Gd Lk Dn Ac Iv Nw]. constructor; auto. apply Good_world; auto. Qed.

Lemma Bd_performs rs : forall m : mach, Bd m -> Bd (performs m rs).
Proof. induction rs as [|r rs IH]; intros m B; simpl; auto. apply IH, Bd_perform; auto. Qed.

Lemma Bd_step fuel (m m' : mach) a : Bd m -> step run fuel m a = Fine m' -> Bd m'.
Proof.
  intros B H. destruct a as [g rs|d|t]; cbn in H.
  - injection H as <-. apply Bd_performs, Bd_world; auto.
  - apply tick_to_ok in H; auto; apply H.
  - apply tick_to_ok in H; auto; apply H.
Qed.

Lemma steps_app fuel h1 h2 : forall m : mach,
  steps run fuel m (h1 ++ h2) =
  match steps run fuel m h1 with Fine m1 => steps run fuel m1 h2 | o => o end.
Proof.
  induction h1 as [|a h1 IH]; intros m; simpl; auto. destruct (step run fuel m a); auto.
Qed.

Lemma Bd_steps fuel h : forall m m' : mach, Bd m -> steps run fuel m h = Fine m' -> Bd m'.
Proof.
  induction h as [|a h IH]; intros m m' B H; simpl in H.
  - injection H as <-; auto.
  - destruct (step run fuel m a) eqn:S; try discriminate. eapply IH; [|eauto]. eapply Bd_step; eauto.
Qed.

Lemma Bd_run fuel d g h m : steps run fuel (boot d g) h = Fine m -> Bd m.
Proof. apply Bd_steps, Bd_boot. Qed.
End Exec.
