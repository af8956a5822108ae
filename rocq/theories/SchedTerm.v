(** Ticks end; invocations are not lost. *)
From Verif Require Import Base SchedModel SchedSpec SchedProofs SchedExec SchedMore.
Set Implicit Arguments.

Lemma horizon_ge {K G} (h : list (act K G)) : forall n, n <= horizon n h.
Proof.
  induction h as [|[g rs|d|t] h IH]; intros n; simpl; auto.
  - eapply Nat.le_trans; [|apply IH]. lia.
  - eapply Nat.le_trans; [|apply IH]. lia.
Qed.

(** ** A predicate on all tasks *)
Section All.
Context {K G : Type}.
Variable run : K -> nat -> G -> K * bool * G * list (req K).
Notation mach := (mach K G).
Notation work := (work K).
Variable fuel T : nat.
Variables PA PI : work -> Prop.
Variable QR : req K -> Prop.

Definition queued (m : mach) : Prop :=
  Forall (fun a => match a with AActivate _ w => PA w | AAddInv _ w => PI w | _ => True end) (m_queue m).
Record All (m : mach) : Prop := mkAll {
  a_snow : m_snow m <= T;
  a_act : Forall (fun x => PA (snd x)) (m_active m);
  a_inv : forall i w, m_inv m i = Some w -> PI w;
  a_q : queued m
}.

Hypothesis Hsched : forall c kd k n, QR (QSched c kd k) -> n <= T -> PA (hook n (new_work kd k)).
Hypothesis Hinv : forall c kd k n, QR (QAddInv c kd k) -> n <= T -> PI (hook n (new_work kd k)).
Hypothesis Hrun : forall k t g, Forall QR (snd (run k t g)).
Hypothesis HA : forall o w t (m m' : mach) w' r, PA w -> t <= T -> work_tick run fuel o w t m = Some (m', w', r) -> PA w'.
Hypothesis HI : forall o w t (m m' : mach) w' r, PI w -> t <= T -> work_tick run fuel o w t m = Some (m', w', r) -> PI w'.

Lemma All_perform (m : mach) r : QR r -> All m -> All (perform m r).
Proof.
  intros Q [A B C D]. destruct r; constructor; cbn; auto; unfold queued in *; cbn; apply Forall_app; split; auto;
    constructor; auto; eauto.
Qed.
Lemma All_performs rs : forall m : mach, Forall QR rs -> All m -> All (performs m rs).
Proof.
  induction rs as [|r rs IH]; intros m F A; simpl; auto. inversion F; subst. apply IH; auto.
  apply All_perform; auto.
Qed.
Lemma All_log (m : mach) e : All m -> All (log m e).
Proof. intros [A B C D]; constructor; auto. Qed.
Lemma All_world (m : mach) g : All m -> All (set_world m g).
Proof. intros [A B C D]; constructor; auto. Qed.
Lemma All_call o k t (m m' : mach) k' r : call run o k t m = (m', k', r) -> All m -> All m'.
Proof.
  unfold call. intros H A. pose proof (Hrun k t (m_world m)) as F.
  destruct (run k t (m_world m)) as [[[k1 d] g1] rs]. injection H as <- <- <-.
  apply All_performs; auto. apply All_world, All_log; auto.
Qed.
Lemma All_evolves o t n (m m' : mach) : evolves run o t n m m' -> All m -> All m'.
Proof. induction 1 as [|n m k m1 k' r m2 C E IH]; auto. intros A. apply IH. eapply All_call; eauto. Qed.
Lemma All_work_tick o w t (m m' : mach) w' r : work_tick run fuel o w t m = Some (m', w', r) -> All m -> All m'.
Proof. intros H. destruct (tick_evolves _ _ _ _ _ _ H) as (n & E). eapply All_evolves; eauto. Qed.

Lemma All_tick_ids : forall l t fin (m m' : mach) fin', t <= T ->
  tick_ids run fuel t l fin m = Some (m', fin') -> All m -> All m'.
Proof.
  induction l as [|id l IH]; intros t fin m m' fin' Lt H A; cbn [tick_ids] in H.
  - injection H as <- <-; auto.
  - destruct (find_work id (m_active m)) as [w|] eqn:F; [|eapply IH; eauto].
    destruct (work_tick run fuel (OWork id) w t (log m (EWork id))) as [[[m1 w1] r]|] eqn:W; [|discriminate].
    apply IH in H; auto. pose proof (@All_work_tick _ _ _ _ _ _ _ W (All_log _ A)) as [A1 A2 A3 A4].
    constructor; auto. cbn. unfold put_work. apply Forall_forall. intros x Hx.
    apply in_map_iff in Hx. destruct Hx as (y & E & Hy). rewrite Forall_forall in A2.
    destruct (fst y =? id); subst x; auto. simpl. refine (@HA _ _ _ _ _ _ _ _ Lt W).
    apply in_find in F. pose proof (a_act A) as Z. rewrite Forall_forall in Z. apply (Z (id, w) F).
Qed.
Lemma All_set_ticked (m : mach) l : All m -> All (set_ticked m l).
Proof. intros [A B C D]; constructor; auto. Qed.
Lemma All_tick_scheduled t (m m' : mach) b : t <= T ->
  tick_scheduled run fuel t m = Some (m', b) -> All m -> All m'.
Proof.
  unfold tick_scheduled. intros Lt H A.
  destruct (tick_ids run fuel t (due m) [] m) as [[m1 fin]|] eqn:E; [|discriminate].
  injection H as <- <-. apply All_tick_ids in E; auto. rewrite fold_dones.
  destruct E as [A1 A2 A3 A4]. constructor; auto. cbn. unfold remove_works.
  rewrite Forall_forall in *. intros x Hx. apply filter_In in Hx. apply A2. tauto.
Qed.
Lemma All_run_invoked : forall l t (m m' : mach), t <= T ->
  run_invoked run fuel t l m = Some m' -> All m -> All m'.
Proof.
  induction l as [|i l IH]; intros t m m' Lt H A; cbn [run_invoked] in H.
  - injection H as <-; auto.
  - destruct (m_inv m i) as [w|] eqn:F; [|eapply IH; eauto].
    destruct (work_tick run fuel (OInv i) w t m) as [[[m1 w1] r]|] eqn:W; [|discriminate].
    apply IH in H; auto. pose proof (@All_work_tick _ _ _ _ _ _ _ W A) as [A1 A2 A3 A4].
    constructor; auto. cbn. unfold set. intros j x. destruct (i =? j); [|apply A3].
    destruct r; [intros; discriminate|]. intros E; injection E as <-. exact (@HI _ _ _ _ _ _ _ (a_inv A _ F) Lt W).
Qed.
Lemma All_drain_fold : forall q (m : mach),
  Forall (fun a => match a with AActivate _ w => PA w | AAddInv _ w => PI w | _ => True end) q ->
  All m -> All (fold_left (@drain_one K G) q m).
Proof.
  induction q as [|a q IH]; intros m F A; simpl; auto. inversion F; subst. apply IH; auto.
  destruct A as [A1 A2 A3 A4]. destruct a; constructor; cbn; auto.
  - apply Forall_app; split; auto.
  - unfold remove_works. rewrite Forall_forall in *. intros x Hx. apply filter_In in Hx. apply A2. tauto.
  - intros j x. unfold set. destruct (iid =? j); [|apply A3]. intros E; injection E as <-; auto.
  - intros j x. unfold set. destruct (iid =? j); [|apply A3]. intros; discriminate.
Qed.
Lemma All_drain t (m : mach) : t <= T -> All m -> All (fst (drain t m)).
Proof.
  intros Lt [A1 A2 A3 A4]. unfold drain. cbn [fst]. apply All_drain_fold; auto.
  constructor; cbn; auto; [rewrite later_max; lia|constructor].
Qed.

(** Given that single tasks end, so does everything. *)
Hypothesis Hend : forall o w t (m : mach), PA w \/ PI w -> t <= T -> work_tick run fuel o w t m <> None.

Lemma end_tick_ids : forall l t fin (m : mach), t <= T -> All m -> tick_ids run fuel t l fin m <> None.
Proof.
  induction l as [|id l IH]; intros t fin m Lt A; cbn [tick_ids]; [discriminate|].
  destruct (find_work id (m_active m)) as [w|] eqn:F; [|apply IH; auto].
  assert (W0 : PA w).
  { apply in_find in F. pose proof (a_act A) as Z. rewrite Forall_forall in Z. apply (Z (id, w) F). }
  destruct (work_tick run fuel (OWork id) w t (log m (EWork id))) as [[[m1 w1] r]|] eqn:E.
  - apply IH; auto. pose proof (@All_work_tick _ _ _ _ _ _ _ E (All_log _ A)) as [A1 A2 A3 A4].
    constructor; auto. cbn. unfold put_work. apply Forall_forall. intros x Hx.
    apply in_map_iff in Hx. destruct Hx as (y & E' & Hy). rewrite Forall_forall in A2.
    destruct (fst y =? id); subst x; auto. simpl. exact (@HA _ _ _ _ _ _ _ W0 Lt E).
  - exfalso. eapply Hend; eauto.
Qed.
Lemma end_run_invoked : forall l t (m : mach), t <= T -> All m -> run_invoked run fuel t l m <> None.
Proof.
  induction l as [|i l IH]; intros t m Lt A; cbn [run_invoked]; [discriminate|].
  destruct (m_inv m i) as [w|] eqn:F; [|apply IH; auto].
  destruct (work_tick run fuel (OInv i) w t m) as [[[m1 w1] r]|] eqn:E.
  - apply IH; auto. pose proof (@All_work_tick _ _ _ _ _ _ _ E A) as [A1 A2 A3 A4].
    constructor; auto. cbn. unfold set. intros j x. destruct (i =? j); [|apply A3].
    destruct r; [intros; discriminate|]. intros E'; injection E' as <-. exact (@HI _ _ _ _ _ _ _ (a_inv A _ F) Lt E).
  - exfalso. eapply Hend; eauto. right. eapply (a_inv A); eauto.
Qed.

Lemma end_rounds : forall n t (m : mach), t <= T -> All m ->
  match rounds run n fuel t m with Hang => False | Fine m' => All m' | Panic _ => True end.
Proof.
  induction n as [|n IH]; intros t m Lt A; cbn [rounds];
    rewrite (surjective_pairing (drain t m)); pose proof (All_drain Lt A) as A1;
    destruct (tick_scheduled run fuel t (fst (drain t m))) as [[m2 b]|] eqn:E1;
    try (unfold tick_scheduled in E1; pose proof (@end_tick_ids (due (fst (drain t m))) t [] _ Lt A1);
         destruct (tick_ids run fuel t (due (fst (drain t m))) [] (fst (drain t m))) as [[? ?]|]; [discriminate|tauto]);
    pose proof (@All_tick_scheduled _ _ _ _ Lt E1 A1) as A2;
    (assert (A3 : All (set_invoked m2 [])) by (destruct A2; constructor; auto));
    destruct (execute_invoked run fuel t m2) as [m3|] eqn:E2;
    try (exfalso; unfold execute_invoked in E2; eapply end_run_invoked; eauto; fail);
    pose proof (@All_run_invoked _ _ _ _ Lt E2 A3) as A4;
    destruct (b && negb (snd (drain t m))); auto.
  apply IH; auto.
Qed.
End All.

(** ** Positive intervals *)
Section Term.
Context {K G : Type}.
Variable run : K -> nat -> G -> K * bool * G * list (req K).
Notation mach := (mach K G).
Notation work := (work K).

Definition brisk (T : nat) (w : work) : Prop :=
  match w with WRepeating _ _ cur i _ _ => 0 < i /\ cur <= T | _ => True end.

Lemma repeating_end : forall fuel o t i cap (imm : bool) c cur k res ex (m : mach), 0 < i ->
  (cur - c) + (if imm then 1 else 0) < fuel ->
  repeating run fuel o t i cap imm c cur k res ex m <> None.
Proof.
  induction fuel as [|f IH]; intros o t i cap imm c cur k res ex m P L; [lia|]. cbn [repeating].
  destruct (((c + i <=? cur) && negb res) || imm) eqn:B; [|discriminate].
  assert (X : imm = false -> c + i <= cur).
  { intros ->. rewrite orb_false_r in B. apply andb_true_iff in B. destruct B as [B _].
    apply Nat.leb_le; auto. }
  destruct (ex <? cap).
  - destruct (call run o k t m) as [[m1 k1] r1]. destruct imm; apply IH; auto; [lia|].
    specialize (X eq_refl). lia.
  - destruct imm; apply IH; auto; [lia|]. specialize (X eq_refl). lia.
Qed.

Lemma repeating_shape : forall fuel o t i cap imm c cur k res ex (m m' : mach) w' r,
  repeating run fuel o t i cap imm c cur k res ex m = Some (m', w', r) ->
  exists imm' c' k', w' = WRepeating imm' c' cur i cap k'.
Proof.
  induction fuel as [|f IH]; intros o t i cap imm c cur k res ex m m' w' r H; cbn [repeating] in H;
    destruct (((c + i <=? cur) && negb res) || imm) eqn:B; try discriminate;
    try (injection H as <- <- <-; eauto; fail).
  destruct (ex <? cap).
  - destruct (call run o k t m) as [[m1 k1] r1]. destruct imm; eapply IH; eauto.
  - destruct imm; eapply IH; eauto.
Qed.

Lemma brisk_tick fuel T o w t (m m' : mach) w' r : brisk T w -> t <= T ->
  work_tick run fuel o w t m = Some (m', w', r) -> brisk T w'.
Proof.
  intros B L H. destruct w as [on cur d [k|]|[k|]|imm c cur i cap k|lst k|k]; simpl in H.
  - destruct (on + d <=? later cur t).
    + destruct (call run o k t m) as [[m1 k1] r1]. injection H as <- <- <-. exact Logic.I.
    + injection H as <- <- <-. exact Logic.I.
  - destruct (on + d <=? later cur t); injection H as <- <- <-; exact Logic.I.
  - destruct (call run o k t m) as [[m1 k1] r1]. injection H as <- <- <-. exact Logic.I.
  - injection H as <- <- <-. exact Logic.I.
  - apply repeating_shape in H. destruct H as (imm' & c' & k' & ->). simpl in *.
    rewrite later_max. lia.
  - destruct (call run o k t m) as [[m1 k1] r1]. injection H as <- <- <-. exact Logic.I.
  - destruct (call run o k t m) as [[m1 k1] r1]. injection H as <- <- <-. exact Logic.I.
Qed.

Lemma brisk_end fuel T o w t (m : mach) : T + 2 <= fuel -> brisk T w -> t <= T ->
  work_tick run fuel o w t m <> None.
Proof.
  intros F B L. destruct w as [on cur d [k|]|[k|]|imm c cur i cap k|lst k|k]; simpl.
  - destruct (on + d <=? later cur t); [|discriminate].
    destruct (call run o k t m) as [[m1 k1] r1]; discriminate.
  - destruct (on + d <=? later cur t); discriminate.
  - destruct (call run o k t m) as [[m1 k1] r1]; discriminate.
  - discriminate.
  - simpl in B. apply repeating_end; [tauto|]. rewrite later_max. destruct imm; lia.
  - destruct (call run o k t m) as [[m1 k1] r1]; discriminate.
  - destruct (call run o k t m) as [[m1 k1] r1]; discriminate.
Qed.

Lemma brisk_new T kd k n : positive_kind kd -> n <= T -> brisk T (hook n (new_work kd k)).
Proof. destruct kd; simpl; auto; rewrite ?later_max; intros; split; auto; try lia. Qed.

Lemma steps_end fuel : (forall k t g, Forall positive_req (snd (run k t g))) ->
  forall h (m : mach) T, Forall positive_act h -> Bd m -> horizon (m_now m) h <= T ->
  T + 2 <= fuel -> All T (brisk T) (brisk T) m -> steps run fuel m h <> Hang.
Proof.
  intros HR. induction h as [|x h IH]; intros m T F B Hz Fu A; simpl; [discriminate|].
  inversion F as [|? ? F1 F2]; subst.
  assert (HT : forall t, t <= T -> m_now m <= T ->
    match tick_to run fuel t m with Hang => False | Fine m' => All T (brisk T) (brisk T) m' | Panic _ => True end).
  { intros t Lt Ln. unfold tick_to.
    apply (end_rounds run fuel (QR := positive_req)); auto.
    - intros c kd k n Q L. apply brisk_new; auto.
    - intros c kd k n Q L. apply brisk_new; auto.
    - intros. eapply brisk_tick; eauto.
    - intros. eapply brisk_tick; eauto.
    - intros o w t' m' [W|W] Lt'; apply brisk_end with (T := T); auto.
    - destruct A; constructor; auto. }
  assert (NX : forall m', step run fuel m x = Fine m' -> m_now m' =
    match x with HDo _ _ => m_now m | HTick d => m_now m + d | HTickTo t => Nat.max (m_now m) t end).
  { intros m' S. pose proof (@Bd_step _ _ run fuel m m' x B S) as B'. rewrite (b_now B').
    destruct x as [g rs|d|t].
    - destruct (@step_do _ _ run fuel m m' (HDo g rs) S (fun X => X)) as (es & L & Fe). rewrite L, now_app, reqs_now by auto.
      symmetry. apply (b_now B).
    - destruct (@tick_step _ _ run fuel m m' (HTick d) B Logic.I S) as (_ & _ & _ & q & L & Sg & _).
      rewrite L, now_app. simpl. rewrite (seg_now Sg), <- (b_now B). lia.
    - destruct (@tick_step _ _ run fuel m m' (HTickTo t) B Logic.I S) as (_ & _ & _ & q & L & Sg & _).
      rewrite L, now_app. simpl. rewrite (seg_now Sg), <- (b_now B). lia. }
  pose proof (horizon_ge h) as HG.
  destruct x as [g rs|d|t].
  - simpl. apply (IH _ T); auto.
    + apply Bd_performs; auto. apply Bd_world; auto.
    + rewrite (NX _ eq_refl). exact Hz.
    + apply All_performs with (QR := positive_req); auto.
      * intros c kd k n Q L. apply brisk_new; auto.
      * intros c kd k n Q L. apply brisk_new; auto.
      * apply All_world; auto.
  - simpl in *. specialize (HG (m_now m + d)). unfold tick in *.
    specialize (HT (m_now m + d) ltac:(lia) ltac:(lia)).
    destruct (tick_to run fuel (m_now m + d) m) as [m1| |] eqn:S; try tauto; [|discriminate].
    apply (IH _ T); auto.
    + exact (@Bd_step _ _ run fuel m m1 (HTick d) B S).
    + rewrite (NX _ eq_refl). exact Hz.
  - simpl in *. specialize (HG (Nat.max (m_now m) t)).
    specialize (HT t ltac:(lia) ltac:(lia)).
    destruct (tick_to run fuel t m) as [m1| |] eqn:S; try tauto; [|discriminate].
    apply (IH _ T); auto.
    + exact (@Bd_step _ _ run fuel m m1 (HTickTo t) B S).
    + rewrite (NX _ eq_refl). exact Hz.
Qed.

Lemma always_ends fuel d g h : (forall k t w, Forall positive_req (snd (run k t w))) ->
  Forall positive_act h -> horizon 0 h + 2 <= fuel -> steps run fuel (boot d g) h <> Hang.
Proof.
  intros HR F L. apply steps_end with (T := horizon 0 h); auto.
  - apply Bd_boot; auto.
  - constructor; cbn; auto; try (constructor; fail); try lia. discriminate.
Qed.
End Term.

(** ** Invocations *)
Lemma registered_pre l r : registered (l ++ r) -> registered l.
Proof. intros H a i b E. apply (H a i (b ++ r)). rewrite E, <- app_assoc. auto. Qed.

Lemma asked_app l r : asked (l ++ r) = asked l ++ asked r.
Proof. induction l as [|e l IH]; simpl; auto. destruct e; simpl; auto. f_equal; auto. Qed.
Lemma invoked_app l r : invoked (l ++ r) = invoked l ++ invoked r.
Proof. induction l as [|e l IH]; simpl; auto. destruct e as [| | | | | | |[|]|]; simpl; auto. f_equal; auto. Qed.

Section Invoke.
Context {K G : Type}.
Variable run : K -> nat -> G -> K * bool * G * list (req K).
Notation mach := (mach K G).
Notation work := (work K).
Variable Pk : K -> Prop.
Hypothesis Hreq : forall k t g, Forall (fair_req Pk) (snd (run k t g)).
Hypothesis Hkeep : forall k t g, Pk k ->
  Pk (fst (fst (fst (run k t g)))) /\ snd (fst (fst (run k t g))) = false.

Fixpoint qinv (q : list (action K)) : list nat :=
  match q with
  | [] => []
  | AInvoke i :: q' => i :: qinv q'
  | _ :: q' => qinv q'
  end.
Lemma qinv_app l r : qinv (l ++ r) = qinv l ++ qinv r.
Proof. induction l as [|e l IH]; simpl; auto. destruct e; simpl; auto. f_equal; auto. Qed.

Definition pw (w : work) : Prop := exists k, w = WInvoked k /\ Pk k.

Record Pend (rem : list nat) (q : list (action K)) (m : mach) : Prop := mkPend {
  p_ask : asked (m_log m) = invoked (m_log m) ++ rem ++ m_invoked m ++ qinv q;
  p_reg : forall i kd, In (EAddInv i kd) (m_log m) -> m_inv m i <> None \/ exists w, In (AAddInv i w) q;
  p_ready : forall i, In i (rem ++ m_invoked m) -> m_inv m i <> None;
  p_queue : forall a i b, q = a ++ AInvoke i :: b -> m_inv m i <> None \/ exists w, In (AAddInv i w) a;
  p_inv : forall i w, m_inv m i = Some w -> pw w;
  p_q : Forall (fun a => match a with AAddInv _ w => pw w | ACancelInv _ => False | _ => True end) q
}.

Lemma queue_snoc (m : mach) (q : list (action K)) x : (forall i, x <> AInvoke i) ->
  (forall a i b, q = a ++ AInvoke i :: b -> m_inv m i <> None \/ exists w, In (AAddInv i w) a) ->
  (forall a i b, q ++ [x] = a ++ AInvoke i :: b -> m_inv m i <> None \/ exists w, In (AAddInv i w) a).
Proof.
  intros N H a i b E. apply split_app in E. destruct E as [(b' & E & _)|(a' & -> & E)].
  - eapply H; eauto.
  - destruct a' as [|y [|z a']]; simpl in E; injection E; intros; try discriminate. subst. exfalso; eapply N; eauto.
Qed.

Lemma Pend_perform rem (m : mach) r : fair_req Pk r -> registered (m_log (perform m r)) ->
  Pend rem (m_queue m) m -> Pend rem (m_queue (perform m r)) (perform m r).
Proof.
  intros F R [h1 h2 h3 h4 h5 h6].
  assert (H2 : forall x i, (m_inv m i <> None \/ exists w, In (AAddInv i w) (m_queue m)) ->
    m_inv m i <> None \/ exists w, In (AAddInv i w) (m_queue m ++ [x])).
  { intros x i [H|(w & H)]; auto. right. exists w. apply in_or_app; auto. }
  destruct r as [cid kd k|cid|iid kd k|iid|iid]; simpl in F; [| | | |tauto].
  - constructor; cbn; auto.
    + rewrite asked_app, invoked_app, qinv_app, !app_nil_r; auto.
    + intros i kd' H. apply in_app_or in H. destruct H as [H|[H|[]]]; [|discriminate]. eauto.
    + apply queue_snoc; auto. discriminate.
    + apply Forall_app; auto.
  - constructor; cbn; auto.
    + rewrite asked_app, invoked_app, qinv_app, !app_nil_r; auto.
    + intros i kd' H. apply in_app_or in H. destruct H as [H|[H|[]]]; [|discriminate]. eauto.
    + apply queue_snoc; auto. discriminate.
    + apply Forall_app; auto.
  - destruct F as [-> Pk0]. constructor; cbn; auto.
    + rewrite asked_app, invoked_app, qinv_app, !app_nil_r; auto.
    + intros i kd' H. apply in_app_or in H. destruct H as [H|[H|[]]]; [eauto|].
      injection H as -> <-. right. eexists. apply in_or_app; right; left; reflexivity.
    + apply queue_snoc; auto. discriminate.
    + apply Forall_app; split; auto. constructor; auto. exists k; auto.
  - constructor; cbn; auto.
    + rewrite asked_app, invoked_app, qinv_app, h1. simpl. rewrite !app_nil_r, <- !app_assoc. auto.
    + intros i kd' H. apply in_app_or in H. destruct H as [H|[H|[]]]; [|discriminate]. eauto.
    + intros a i b E. apply split_app in E. destruct E as [(b' & E & _)|(a' & -> & E)].
      * eapply h4; eauto.
      * destruct a' as [|y [|z a']]; simpl in E; injection E; intros; try discriminate. subst.
        destruct (R (m_log m) i []) as (kd & Hk); [reflexivity|]. rewrite app_nil_r. eapply h2; eauto.
    + apply Forall_app; auto.
Qed.

Lemma Pend_performs rem rs : forall (m : mach), Forall (fair_req Pk) rs -> registered (m_log (performs m rs)) ->
  Pend rem (m_queue m) m -> Pend rem (m_queue (performs m rs)) (performs m rs).
Proof.
  induction rs as [|r rs IH]; intros m F R P; auto. simpl in *. inversion F; subst.
  apply IH; auto. apply Pend_perform; auto.
  destruct (performs_log rs (perform m r)) as (es & E & _). unfold performs in R.
  fold (performs (perform m r) rs) in R. rewrite E in R. eapply registered_pre; eauto.
Qed.

Lemma Pend_log rem (m : mach) e : (forall i, e <> EInvoke i) -> (forall i kd, e <> EAddInv i kd) ->
  (forall i t, e <> ERan (OInv i) t) -> Pend rem (m_queue m) m -> Pend rem (m_queue m) (log m e).
Proof.
  intros N1 N2 N3 [h1 h2 h3 h4 h5 h6]. constructor; auto.
  - cbn. rewrite asked_app, invoked_app, h1.
    assert (A : asked [e] = []) by (destruct e; auto; exfalso; eapply N1; eauto).
    assert (B : invoked [e] = []) by (destruct e as [| | | | | | |[|]|]; auto; exfalso; eapply N3; eauto).
    rewrite A, B, !app_nil_r. auto.
  - intros i kd H. cbn in H. apply in_app_or in H. destruct H as [H|[H|[]]]; eauto.
    exfalso; eapply N2; eauto.
Qed.

Lemma call_eq o k t (m m1 : mach) k1 r : call run o k t m = (m1, k1, r) ->
  exists g1 rs, run k t (m_world m) = (k1, r, g1, rs) /\ m1 = performs (set_world (log m (ERan o t)) g1) rs.
Proof.
  unfold call. destruct (run k t (m_world m)) as [[[k2 d] g2] rs]. intros H. injection H as <- <- <-. eauto.
Qed.

Lemma Pend_call_work rem id k t (m m1 : mach) k1 r : call run (OWork id) k t m = (m1, k1, r) ->
  registered (m_log m1) -> Pend rem (m_queue m) m -> Pend rem (m_queue m1) m1.
Proof.
  intros C R P. pose proof (Hreq k t (m_world m)) as F.
  destruct (call_eq _ _ _ _ C) as (g1 & rs & E & ->). rewrite E in F. simpl in F.
  apply Pend_performs; auto. cbn [m_queue set_world log].
  assert (P' : Pend rem (m_queue m) (log m (ERan (OWork id) t))) by (apply Pend_log; auto; discriminate).
  destruct P' as [h1 h2 h3 h4 h5 h6]. constructor; auto.
Qed.

Lemma Pend_call_inv rem i k t (m m1 : mach) k1 r : call run (OInv i) k t m = (m1, k1, r) ->
  registered (m_log m1) -> Pend (i :: rem) (m_queue m) m -> Pend rem (m_queue m1) m1.
Proof.
  intros C R [h1 h2 h3 h4 h5 h6]. pose proof (Hreq k t (m_world m)) as F.
  destruct (call_eq _ _ _ _ C) as (g1 & rs & E & ->). rewrite E in F. simpl in F.
  apply Pend_performs; auto. cbn [m_queue set_world log]. constructor; auto.
  - cbn. rewrite asked_app, invoked_app, h1. simpl. rewrite app_nil_r, <- !app_assoc. auto.
  - intros j kd H. cbn in H. apply in_app_or in H. destruct H as [H|[H|[]]]; [eauto|discriminate].
  - intros j H. apply h3. right. auto.
Qed.

Lemma Pend_evolves rem id t n (m m' : mach) : evolves run (OWork id) t n m m' ->
  registered (m_log m') -> Pend rem (m_queue m) m -> Pend rem (m_queue m') m'.
Proof.
  induction 1 as [|n m k m1 k' r m2 C E IH]; intros R P; auto. apply IH; auto.
  destruct (evolves_fact E) as (_ & (es & L & _) & _). rewrite L in R. apply registered_pre in R.
  eapply Pend_call_work; eauto.
Qed.

(** The log only grows. *)
Lemma tick_ids_ext fuel t : forall l fin (m m' : mach) fin',
  tick_ids run fuel t l fin m = Some (m', fin') -> exists es, m_log m' = m_log m ++ es.
Proof.
  induction l as [|id l IH]; intros fin m m' fin' H; cbn [tick_ids] in H.
  - injection H as <- <-. exists []. rewrite app_nil_r; auto.
  - destruct (find_work id (m_active m)) as [w|] eqn:F; [|eapply IH; eauto].
    destruct (work_tick run fuel (OWork id) w t (log m (EWork id))) as [[[m1 w1] r]|] eqn:W; [|discriminate].
    apply IH in H. destruct H as (es & L). destruct (tick_evolves _ _ _ _ _ _ W) as (n & E).
    destruct (evolves_fact E) as (_ & (es' & L' & _) & _). cbn in L, L'. rewrite L, L', <- !app_assoc. eauto.
Qed.
Lemma run_invoked_ext fuel t : forall l (m m' : mach),
  run_invoked run fuel t l m = Some m' -> exists es, m_log m' = m_log m ++ es.
Proof.
  induction l as [|i l IH]; intros m m' H; cbn [run_invoked] in H.
  - injection H as <-. exists []. rewrite app_nil_r; auto.
  - destruct (m_inv m i) as [w|]; [|eapply IH; eauto].
    destruct (work_tick run fuel (OInv i) w t m) as [[[m1 w1] r]|] eqn:W; [|discriminate].
    apply IH in H. destruct H as (es & L). destruct (tick_evolves _ _ _ _ _ _ W) as (n & E).
    destruct (evolves_fact E) as (_ & (es' & L' & _) & _). cbn in L, L'. rewrite L, L', <- !app_assoc. eauto.
Qed.

Lemma Pend_active rem q (m : mach) a : Pend rem q m -> Pend rem q (set_active m a).
Proof. intros [h1 h2 h3 h4 h5 h6]; constructor; auto. Qed.

Lemma Pend_tick_ids fuel t rem : forall l fin (m m' : mach) fin',
  tick_ids run fuel t l fin m = Some (m', fin') -> registered (m_log m') ->
  Pend rem (m_queue m) m -> Pend rem (m_queue m') m'.
Proof.
  induction l as [|id l IH]; intros fin m m' fin' H R P; cbn [tick_ids] in H.
  - injection H as <- <-. auto.
  - destruct (find_work id (m_active m)) as [w|] eqn:F; [|eapply IH; eauto].
    destruct (work_tick run fuel (OWork id) w t (log m (EWork id))) as [[[m1 w1] r]|] eqn:W; [|discriminate].
    destruct (@tick_ids_ext _ _ _ _ _ _ _ H) as (es & L).
    eapply IH; eauto. cbn [m_queue set_active]. apply Pend_active.
    destruct (tick_evolves _ _ _ _ _ _ W) as (n & E).
    refine (Pend_evolves E _ _).
    + rewrite L in R. apply registered_pre in R. exact R.
    + change (m_queue (log m (EWork id))) with (m_queue m). apply Pend_log; auto; discriminate.
Qed.

Lemma Pend_drain rem : forall q (m : mach), Pend rem q m -> Pend rem [] (fold_left (@drain_one K G) q m).
Proof.
  induction q as [|x q IH]; intros m P; simpl; auto. apply IH. clear IH.
  destruct P as [h1 h2 h3 h4 h5 h6]. inversion h6 as [|? ? F1 F2]; subst.
  assert (R2 : forall f : nat -> option work, (forall i, m_inv m i <> None -> f i <> None) ->
    (forall i w, x = AAddInv i w -> f i <> None) ->
    (forall i kd, In (EAddInv i kd) (m_log m) -> f i <> None \/ exists w, In (AAddInv i w) q)).
  { intros f H1 H2 i kd H. apply h2 in H. destruct H as [H|(w & [H|H])]; eauto. }
  assert (R4 : forall f : nat -> option work, (forall i, m_inv m i <> None -> f i <> None) ->
    (forall i w, x = AAddInv i w -> f i <> None) ->
    (forall a i b, q = a ++ AInvoke i :: b -> f i <> None \/ exists w, In (AAddInv i w) a)).
  { intros f H1 H2 a i b H. destruct (h4 (x :: a) i b) as [Z|(w & [Z|Z])]; eauto. rewrite H; auto. }
  destruct x as [cid w|cid|iid w|iid|iid]; simpl in F1; [| | | |tauto].
  - constructor; cbn; auto; [apply R2|apply R4]; auto; discriminate.
  - constructor; cbn; auto; [apply R2|apply R4]; auto; discriminate.
  - assert (S1 : forall i, m_inv m i <> None -> set (m_inv m) iid (Some w) i <> None).
    { intros i H. unfold set. destruct (iid =? i); auto. discriminate. }
    assert (S2 : forall i w0, AAddInv iid w = AAddInv i w0 -> set (m_inv m) iid (Some w) i <> None).
    { intros i w0 H. injection H as -> <-. unfold set. rewrite Nat.eqb_refl. discriminate. }
    constructor; cbn; auto.
    + apply R2; auto.
    + apply R4; auto.
    + intros i w0. unfold set. destruct (iid =? i); [|apply h5]. intros H; injection H as <-; auto.
  - constructor; cbn; auto.
    + rewrite h1. simpl. rewrite <- !app_assoc. auto.
    + apply R2; auto. discriminate.
    + intros i H. rewrite app_assoc, in_app_iff in H. destruct H as [H|[<-|[]]]; auto.
      destruct (h4 [] iid q eq_refl) as [Z|(w & [])]; auto.
    + apply R4; auto. discriminate.
Qed.

Lemma Pend_run_invoked fuel t : forall l (m m' : mach),
  run_invoked run fuel t l m = Some m' -> registered (m_log m') -> m_invoked m = [] ->
  Pend l (m_queue m) m -> Pend [] (m_queue m') m' /\ m_invoked m' = [].
Proof.
  induction l as [|i l IH]; intros m m' H R V P; cbn [run_invoked] in H.
  - injection H as <-. auto.
  - destruct (m_inv m i) as [w|] eqn:F; [|exfalso; apply (p_ready P i); auto; left; auto].
    destruct (p_inv P i F) as (k & -> & Pk0). simpl in H.
    destruct (call run (OInv i) k t m) as [[m1 k1] r] eqn:C.
    destruct (@run_invoked_ext _ _ _ _ _ H) as (es & L). cbn [m_log set_inv] in L.
    assert (R1 : registered (m_log m1)) by (rewrite L in R; eapply registered_pre; eauto).
    pose proof (@Pend_call_inv _ _ _ _ _ _ _ _ C R1 P) as P1.
    destruct (call_eq _ _ _ _ C) as (g1 & rs & E & Em).
    destruct (Hkeep t (m_world m) Pk0) as [Pk1 Dn]. rewrite E in Pk1, Dn. simpl in Pk1, Dn. subst r.
    assert (V1 : m_invoked m1 = []).
    { rewrite Em. destruct (performs_same rs (set_world (log m (ERan (OInv i) t)) g1)) as (_ & _ & _ & _ & _ & _ & Z & _).
      rewrite Z. exact V. }
    eapply IH; eauto. cbn [m_queue set_inv].
    assert (S1 : forall j, m_inv m1 j <> None -> set (m_inv m1) i (Some (WInvoked k1)) j <> None).
    { intros j Hj. unfold set. destruct (i =? j); auto. discriminate. }
    destruct P1 as [h1 h2 h3 h4 h5 h6]. constructor; cbn; auto.
    + intros j kd Hj. apply h2 in Hj. destruct Hj; auto.
    + intros a j b Hj. apply h4 in Hj. destruct Hj; auto.
    + intros j w. unfold set. destruct (i =? j); [|apply h5]. intros X; injection X as <-. exists k1; auto.
Qed.

Lemma rounds_ext fuel t : forall n (m m' : mach),
  rounds run n fuel t m = Fine m' -> exists es, m_log m' = m_log m ++ es.
Proof.
  assert (X : forall m m2 m3 b, tick_scheduled run fuel t (fst (drain t m)) = Some (m2, b) ->
    execute_invoked run fuel t m2 = Some m3 -> exists es, m_log m3 = m_log m ++ es).
  { intros m m2 m3 b T E. unfold tick_scheduled in T.
    destruct (tick_ids run fuel t (due (fst (drain t m))) [] (fst (drain t m))) as [[m1 fin]|] eqn:I; [|discriminate].
    injection T as <- <-. apply tick_ids_ext in I. destruct I as (e1 & I).
    unfold execute_invoked in E. apply run_invoked_ext in E. destruct E as (e2 & E).
    rewrite E. cbn [m_log set_invoked]. rewrite fold_dones. cbn [m_log set_active set_ticked]. rewrite I.
    destruct (drain_fields (m_queue m) (set_sched m (later (m_snow m) t) [])) as (_ & _ & _ & _ & _ & _ & _ & _ & D).
    unfold drain. cbn [fst]. rewrite D. cbn [m_log set_sched]. rewrite <- !app_assoc. eauto. }
  induction n as [|n IH]; intros m m' H; cbn [rounds] in H; rewrite (surjective_pairing (drain t m)) in H;
    destruct (tick_scheduled run fuel t (fst (drain t m))) as [[m2 b]|] eqn:T; try discriminate;
    destruct (execute_invoked run fuel t m2) as [m3|] eqn:E; try discriminate;
    destruct (X _ _ _ _ T E) as (e1 & L); destruct (b && negb (snd (drain t m))); try discriminate;
    try (injection H as <-; eauto; fail).
  apply IH in H. destruct H as (e2 & ->). rewrite L, <- app_assoc. eauto.
Qed.

Lemma Pend_round fuel t (m m2 m3 : mach) b :
  tick_scheduled run fuel t (fst (drain t m)) = Some (m2, b) ->
  execute_invoked run fuel t m2 = Some m3 -> registered (m_log m3) ->
  Pend [] (m_queue m) m -> Pend [] (m_queue m3) m3 /\ m_invoked m3 = [].
Proof.
  intros T E R P. unfold tick_scheduled in T.
  destruct (tick_ids run fuel t (due (fst (drain t m))) [] (fst (drain t m))) as [[m1 fin]|] eqn:I; [|discriminate].
  injection T as <- <-. unfold execute_invoked in E.
  destruct (@run_invoked_ext _ _ _ _ _ E) as (e2 & L). eapply Pend_run_invoked; eauto.
  rewrite fold_dones. cbn [m_queue m_invoked set_invoked set_active set_ticked].
  rewrite fold_dones in L. cbn [m_log set_invoked set_active set_ticked] in L.
  assert (P1 : Pend [] (m_queue m1) m1).
  { eapply Pend_tick_ids; eauto.
    - rewrite L, <- app_assoc in R. eapply registered_pre; eauto.
    - unfold drain. cbn [fst].
      destruct (drain_fields (m_queue m) (set_sched m (later (m_snow m) t) [])) as (_ & _ & D & _).
      rewrite D. cbn [m_queue set_sched]. apply Pend_drain. destruct P; constructor; auto. }
  assert (Z1 : forall l, asked (map EDone l) = []) by (induction l; simpl; auto).
  assert (Z2 : forall l, invoked (map EDone l) = []) by (induction l; simpl; auto).
  destruct P1 as [h1 h2 h3 h4 h5 h6]. constructor; cbn; auto.
  - rewrite asked_app, invoked_app, Z1, Z2, !app_nil_r, h1. auto.
  - intros i kd H. apply in_app_or in H. destruct H as [H|H]; [eauto|].
    apply in_map_iff in H. destruct H as (x & H & _). discriminate.
  - intros i H. rewrite app_nil_r in H. apply h3. auto.
Qed.

Lemma Pend_rounds fuel t : forall n (m m' : mach),
  rounds run n fuel t m = Fine m' -> registered (m_log m') ->
  Pend [] (m_queue m) m -> Pend [] (m_queue m') m'.
Proof.
  induction n as [|n IH]; intros m m' H R P; cbn [rounds] in H; rewrite (surjective_pairing (drain t m)) in H;
    destruct (tick_scheduled run fuel t (fst (drain t m))) as [[m2 b]|] eqn:T; try discriminate;
    destruct (execute_invoked run fuel t m2) as [m3|] eqn:E; try discriminate;
    destruct (b && negb (snd (drain t m))); try discriminate;
    try (injection H as <-; eapply Pend_round; eauto; fail).
  eapply IH; eauto. destruct (@rounds_ext _ _ _ _ _ H) as (es & L).
  eapply Pend_round; eauto. rewrite L in R. eapply registered_pre; eauto.
Qed.

Lemma steps_ext fuel : forall h (m m' : mach),
  steps run fuel m h = Fine m' -> exists es, m_log m' = m_log m ++ es.
Proof.
  induction h as [|x h IH]; intros m m' H; simpl in H.
  - injection H as <-. exists []. rewrite app_nil_r; auto.
  - destruct (step run fuel m x) as [m1| |] eqn:S; try discriminate.
    apply IH in H. destruct H as (es & L).
    assert (Q : exists es, m_log m1 = m_log m ++ es).
    { destruct x as [g rs|d|t]; cbn in S.
      - injection S as <-. destruct (performs_log rs (set_world m g)) as (e & E & _). eauto.
      - apply rounds_ext in S. destruct S as (e & ->). cbn. rewrite <- app_assoc. eauto.
      - apply rounds_ext in S. destruct S as (e & ->). cbn. rewrite <- app_assoc. eauto. }
    destruct Q as (e & Q). rewrite L, Q, <- app_assoc. eauto.
Qed.

Lemma Pend_step fuel (m m' : mach) x : fair_act Pk x -> step run fuel m x = Fine m' ->
  registered (m_log m') -> Pend [] (m_queue m) m -> Pend [] (m_queue m') m'.
Proof.
  intros F S R P.
  assert (HT : forall t, tick_to run fuel t m = Fine m' -> Pend [] (m_queue m') m').
  { intros t H. eapply Pend_rounds; eauto.
    destruct P as [h1 h2 h3 h4 h5 h6]. constructor; cbn; auto.
    - rewrite asked_app, invoked_app. cbn [asked invoked]. rewrite !app_nil_r. auto.
    - intros i kd X. apply in_app_or in X. destruct X as [X|[X|[]]]; [eauto|discriminate]. }
  destruct x as [g rs|d|t]; cbn in S.
  - injection S as <-. apply Pend_performs; auto. destruct P; constructor; auto.
  - eapply HT; eauto.
  - eapply HT; eauto.
Qed.

Lemma Pend_steps fuel : forall h (m m' : mach), Forall (fair_act Pk) h ->
  steps run fuel m h = Fine m' -> registered (m_log m') ->
  Pend [] (m_queue m) m -> Pend [] (m_queue m') m'.
Proof.
  induction h as [|x h IH]; intros m m' F H R P; simpl in H.
  - injection H as <-; auto.
  - destruct (step run fuel m x) as [m1| |] eqn:S; try discriminate. inversion F; subst.
    eapply IH; eauto. destruct (@steps_ext _ _ _ _ H) as (es & L).
    eapply Pend_step; eauto. rewrite L in R. eapply registered_pre; eauto.
Qed.

(** Without cancellations, after every tick all invocations asked for were made, in order. *)
Lemma all_invoked fuel d g h x (m0 m : mach) : Forall (fair_act Pk) h -> is_tick x ->
  steps run fuel (boot d g) h = Fine m0 -> step run fuel m0 x = Fine m ->
  registered (m_log m) -> invoked (m_log m) = asked (m_log m).
Proof.
  intros F T H S R.
  assert (R0 : registered (m_log m0)).
  { assert (H1 : steps run fuel m0 [x] = Fine m) by (simpl; rewrite S; auto).
    destruct (@steps_ext _ _ _ _ H1) as (es & L). rewrite L in R. eapply registered_pre; eauto. }
  assert (P0 : Pend [] (m_queue m0) m0).
  { eapply Pend_steps; eauto. constructor; cbn; auto; try tauto; try discriminate.
    - intros [|] i b E; discriminate.
    }
  assert (P : Pend [] (m_queue m) m).
  { eapply Pend_step; eauto. destruct x; simpl in *; tauto. }
  pose proof (Bd_run _ _ _ _ _ H) as B.
  destruct (@tick_step _ _ run fuel m0 m x B T S) as (B' & Q & _).
  pose proof (p_ask P) as A. rewrite Q, (b_inv B') in A. simpl in A. rewrite app_nil_r in A. auto.
Qed.
End Invoke.

(** A zero interval: a task that is never done is never given up on. *)
Section Spin.
Variables K G : Type.
Variable run : K -> nat -> G -> K * bool * G * list (req K).
Hypothesis Hnd : forall k t g, snd (fst (fst (run k t g))) = false.

Lemma spin : forall fuel o t cap c cur k imm ex (m : mach K G), c <= cur ->
  repeating run fuel o t 0 cap imm c cur k false ex m = None.
Proof.
  induction fuel as [|f IH]; intros o t cap c cur k imm ex m L; cbn [repeating];
    rewrite Nat.add_0_r, (proj2 (Nat.leb_le c cur) L); cbn [negb andb orb]; auto.
  destruct (ex <? cap); [|destruct imm; apply IH; auto].
  unfold call. specialize (Hnd k t (m_world m)).
  destruct (run k t (m_world m)) as [[[k' dn] g'] rs] eqn:E.
  cbn in Hnd. subst dn. destruct imm; apply IH; auto.
Qed.

Lemma zero_hangs fuel d g cid imm cap k : 
  steps run fuel (boot (S d) g) [HDo g [QSched cid (KRepeating 0 imm cap) k]; HTick 1] = Hang.
Proof. cbn. unfold tick_scheduled. cbn. rewrite spin; auto. Qed.
End Spin.
