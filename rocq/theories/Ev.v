(** Proofs about [EvModel]: the two tasks in the scheduler. *)
From Verif Require Import Base SubscrModel SchedModel EvModel EvSpec EvWorld.
Set Implicit Arguments.

Section Ev.
Variables A X : Type.
Notation K := (clos X).
Notation G := (world A).
Notation call := (ncall A Empty_set).
Notation mach := (SchedModel.mach K G).
Notation wk := (work K).
Variable down : list call -> bool * list (req K).
Hypothesis Hdown : fair_down down.
Variable user : X -> nat -> list (lev A) -> X * bool * list (oact A X).
Hypothesis Huser : fair_user user.
Notation run := (EvModel.run user).

Definition wS : wk := WImmediate (Some KSpawn).
Definition wD : wk := WInvoked KDespawn.
Definition okk (k : K) : Prop := exists x, k = KOther x.
Definition oko (k : option K) : Prop := match k with Some k => okk k | None => True end.
Definition other (w : wk) : Prop :=
  match w with
  | WDelayed _ _ _ k => oko k
  | WImmediate k => oko k
  | WRepeating _ _ _ _ _ k => okk k
  | WContinuous _ k => okk k
  | WInvoked k => okk k
  end.
Definition okq (a : action K) : Prop :=
  match a with
  | AActivate 0 w => w = wS
  | AActivate (S _) w => other w
  | AAddInv 0 w => w = wD
  | AAddInv (S _) w => other w
  | ACancelInv _ => False
  | _ => True
  end.
Definition cnt {T} (f : T -> bool) (l : list T) : nat := length (filter f l).
Arguments cnt : simpl never.
Lemma cnt_app : forall T f (a b : list T), cnt f (a ++ b) = cnt f a + cnt f b.
Proof. intros. unfold cnt. now rewrite filter_app, app_length. Qed.
Lemma cnt_cons : forall T f a (l : list T), cnt f (a :: l) = (if f a then 1 else 0) + cnt f l.
Proof. intros. unfold cnt. cbn. now destruct (f a). Qed.
Definition isA (a : action K) : bool := match a with AActivate 0 _ => true | _ => false end.
Definition isD (a : action K) : bool := match a with AAddInv 0 _ => true | _ => false end.
Definition isI (a : action K) : bool := match a with AInvoke 0 => true | _ => false end.
Definition isC (a : action K) : bool := match a with ACancel 0 => true | _ => false end.
Definition isS (x : nat * wk) : bool := match snd x with WImmediate (Some KSpawn) => true | _ => false end.
Definition is0 (i : nat) : bool := i =? 0.
Definition some (o : option wk) : nat := match o with Some _ => 1 | None => 0 end.
Lemma isS_eq : forall id w, isS (id, w) = true -> w = wS.
Proof. intros id w. destruct w as [| [k|] | | |]; cbn; try discriminate. destruct k; try discriminate. reflexivity. Qed.
Lemma other_notS : forall id w, other w -> isS (id, w) = false.
Proof. intros id w H. destruct w as [| [k|] | | |]; cbn; auto. destruct H as [x ->]. reflexivity. Qed.

Definition order (q : list (action K)) : Prop :=
  exists q1 q2, q = q1 ++ AInvoke 0 :: ACancel 0 :: q2 /\ cnt isA q2 = 0.
Definition phase (nS nD nI nC : nat) (ord : Prop) (sub open sp dr : bool) : Prop :=
  match sub, open, sp, dr with
  | false, true, false, false => nS = 0 /\ nD = 0 /\ nI = 0 /\ nC = 0
  | true, true, false, false => nS = 1 /\ nD = 0 /\ nI = 0 /\ nC = 0
  | true, true, true, false => nS = 0 /\ nD = 1 /\ nI = 0 /\ nC = 0
  | true, false, true, false => nS = 0 /\ nD = 1 /\ nI = 1
  | true, false, true, true => nS = 0 /\ nD = 0 /\ nI = 0
  | true, false, false, false => nD = 0 /\ (nS = 0 \/ (nS = 1 /\ nI = 1 /\ nC = 1 /\ ord))
  | _, _, _, _ => False
  end.

(** [q]: the actions not drained yet; [ids]: the invocations not made yet. *)
Record J (q : list (action K)) (ids : list nat) (ac : list (nat * wk)) (cm : nat -> list nat) (nx : nat)
    (inv : nat -> option wk) (tk : list nat) (sub open sp dr : bool) : Prop := {
  j_q : Forall okq q;
  j_act : forall id w, In (id, w) ac -> id < nx /\ (w = wS \/ other w);
  j_nd : NoDup (map fst ac);
  j_cm : forall cid id, In id (cm cid) -> id < nx;
  j_S : forall id, In (id, wS) ac -> In id (cm 0) /\ forall cid, cid <> 0 -> ~ In id (cm cid);
  j_inv0 : inv 0 = None \/ inv 0 = Some wD;
  j_inv : forall i w, i <> 0 -> inv i = Some w -> other w;
  j_tk : forall id, In id tk -> id < nx /\ ~ In (id, wS) ac;
  j_ph : phase (cnt isA q + cnt isS ac) (cnt isD q + some (inv 0)) (cnt isI q + cnt is0 ids) (cnt isC q) (order q) sub open sp dr
}.
Definition JM (q : list (action K)) (ids : list nat) (m : mach) : Prop :=
  J q ids (m_active m) (m_cmap m) (m_next m) (m_inv m) (m_ticked m)
    (g_sub (m_world m)) (g_open (m_world m)) (g_spawned (m_world m)) (g_dropped (m_world m)).
(** Between two drains: *)
Definition late (q : list (action K)) (ids : list nat) (ac : list (nat * wk)) : Prop :=
  0 < cnt is0 ids -> cnt isD q = 0 /\ cnt isA q + cnt isS ac = 0.
Variable was : bool.
Definition TI (ids : list nat) (m : mach) : Prop :=
  (g_open (m_world m) = true -> was = true) /\ JM (m_queue m) ids m /\ late (m_queue m) ids (m_active m) /\ Wd down (g_cmds (m_world m)) (m_world m).

Lemma in_cntS : forall ac id, In (id, wS) ac -> 0 < cnt isS ac.
Proof. induction ac as [|x ac IH]; intros id []; rewrite cnt_cons; [subst; cbn; lia|]. specialize (IH _ H). destruct (isS x); lia. Qed.
Lemma cntS_in : forall ac, 0 < cnt isS ac -> exists id, In (id, wS) ac.
Proof.
  induction ac as [|[id w] ac IH]; [unfold cnt; cbn; lia|]. rewrite cnt_cons. destruct (isS (id, w)) eqn:Q.
  - intros _. apply isS_eq in Q. subst. exists id. now left.
  - intros H. destruct IH as [i Hi]; [lia|]. exists i. now right.
Qed.

(** *** Draining. *)
Ltac fl := unfold phase; repeat match goal with
  | |- context [if g_sub ?w then _ else _] => destruct (g_sub w)
  | |- context [if g_open ?w then _ else _] => destruct (g_open w)
  | |- context [if g_spawned ?w then _ else _] => destruct (g_spawned w)
  | |- context [if g_dropped ?w then _ else _] => destruct (g_dropped w)
  end.

Lemma remove_notS : forall js ac, (forall id, In (id, wS) ac -> ~ In id js) -> cnt isS (remove_works js ac) = cnt isS ac.
Proof.
  intros js. induction ac as [|[id w] ac IH]; intros H; auto.
  assert (IH' := IH (fun i Hi => H i (or_intror Hi))). unfold remove_works in *. cbn [filter fst]. destruct (mem id js) eqn:Q; cbn [negb]; rewrite ?cnt_cons, IH'; auto.
  destruct (isS (id, w)) eqn:Z; auto. apply isS_eq in Z. subst. exfalso. apply (H id); [now left|]. unfold mem in Q. apply existsb_exists in Q. destruct Q as (y & Y1 & Y2). apply Nat.eqb_eq in Y2. now subst.
Qed.
Lemma remove_allS : forall js ac, (forall id, In (id, wS) ac -> In id js) -> cnt isS (remove_works js ac) = 0.
Proof.
  intros js. induction ac as [|[id w] ac IH]; intros H; auto.
  assert (IH' := IH (fun i Hi => H i (or_intror Hi))). unfold remove_works in *. cbn [filter fst]. destruct (mem id js) eqn:Q; cbn [negb]; auto. rewrite cnt_cons, IH'.
  destruct (isS (id, w)) eqn:Z; auto. apply isS_eq in Z. subst. exfalso. assert (Y := H id (or_introl eq_refl)).
  assert (mem id js = true) by (apply existsb_exists; exists id; split; auto; apply Nat.eqb_refl). congruence.
Qed.
Lemma in_remove : forall js ac id (w : wk), In (id, w) (remove_works js ac) -> In (id, w) ac.
Proof. intros js ac id w H. apply filter_In in H. tauto. Qed.
Lemma nd_remove : forall js (ac : list (nat * wk)), NoDup (map fst ac) -> NoDup (map fst (remove_works js ac)).
Proof.
  intros js ac. induction ac as [|x ac IH]; intros H; cbn; auto. inversion H; subst. destruct (negb _); auto. cbn. constructor; auto.
  intros Q. apply H2. apply in_map_iff in Q. destruct Q as (y & Y1 & Y2). apply filter_In in Y2. apply in_map_iff. exists y. tauto.
Qed.

Lemma nd_snoc : forall (ac : list (nat * wk)) nx w, NoDup (map fst ac) -> (forall id w, In (id, w) ac -> id < nx) -> NoDup (map fst (ac ++ [(nx, w)])).
Proof.
  intros ac nx w. rewrite map_app. cbn. induction ac as [|[i v] ac IH]; cbn; intros N L; [constructor; auto; constructor|]. inversion N; subst. constructor.
  - intros Q. apply in_app_or in Q. destruct Q as [Q|[Q|[]]]; auto. subst. specialize (L i v (or_introl eq_refl)). lia.
  - apply IH; auto. intros id u Q. apply (L id u). now right.
Qed.
Lemma order_tl : forall a q, order (a :: q) -> a <> AInvoke 0 -> order q.
Proof.
  intros a q (q1 & q2 & H1 & H2) Ha. destruct q1 as [|x q1]; cbn in H1; [injection H1 as H1 _; congruence|]. injection H1 as _ H1. exists q1, q2. auto.
Qed.

(** One action. Not covered: the invocation, if the first task is still there. *)
Lemma drain_J : forall a q m, JM (a :: q) (m_invoked m) m -> (a = AInvoke 0 -> cnt isA q + cnt isS (m_active m) = 0) ->
  JM q (m_invoked (drain_one m a)) (drain_one m a).
Proof.
  intros a q m H Ha. unfold JM in *. pose proof (j_q H) as Hq. inversion Hq as [|? ? Ok Hq']; subst. pose proof (j_ph H) as P. rewrite !cnt_cons in P.
  destruct a as [[|cid] w|[|cid]|[|i] w|[|i]|i]; cbn [okq] in Ok; cbn [isA isD isI isC] in P; cbn [drain_one m_active m_cmap m_next m_inv m_ticked m_world m_invoked set_inv set_invoked].
  - (* the first task *) subst w. assert (P' : phase (cnt isA q + S (cnt isS (m_active m))) (cnt isD q + some (m_inv m 0)) (cnt isI q + cnt is0 (m_invoked m)) (cnt isC q) (order q)
      (g_sub (m_world m)) (g_open (m_world m)) (g_spawned (m_world m)) (g_dropped (m_world m))).
    { clear - P. revert P. fl; auto; try lia.
      intros (P1 & P2). split; [lia|]. right. destruct P2 as [P2|(P2 & P3 & P4 & P5)]; [lia|]. split; [lia|]. split; [lia|]. split; [lia|]. eapply order_tl; eauto; discriminate. }
    constructor; auto; try apply H.
    + intros id w Q. apply in_app_or in Q. destruct Q as [Q|[[= <- <-]|[]]]; [destruct (j_act H _ _ Q); split; [lia|auto]|]. split; [lia|auto].
    + apply nd_snoc; [apply H|]. intros id w Q. apply (j_act H _ _ Q).
    + intros cid id Q. unfold set in Q. destruct (0 =? cid); [|apply (j_cm H) in Q; lia]. apply in_app_or in Q. destruct Q as [Q|[<-|[]]]; [apply (j_cm H) in Q; lia|lia].
    + intros id Q. apply in_app_or in Q. unfold set. cbn. destruct Q as [Q|[[= <-]|[]]].
      * destruct (j_S H _ Q) as [Z1 Z2]. split; [apply in_or_app; auto|]. intros cid Hc. destruct cid; [contradiction|]. cbn. auto.
      * split; [apply in_or_app; right; now left|]. intros cid Hc Z. destruct cid; [contradiction|]. cbn in Z. apply (j_cm H) in Z. lia.
    + intros id Q. destruct (j_tk H _ Q). split; [lia|]. intros Z. apply in_app_or in Z. destruct Z as [Z|[[= <-]|[]]]; [auto|lia].
    + rewrite cnt_app, cnt_cons. change (cnt isS []) with 0. change (isS (m_next m, wS)) with true. cbn [Nat.add]. rewrite Nat.add_1_r. exact P'.
  - (* another task *)
    assert (N : isS (m_next m, w) = false) by now apply other_notS.
    constructor; auto; try apply H.
    + intros id w' Q. apply in_app_or in Q. destruct Q as [Q|[[= <- <-]|[]]]; [destruct (j_act H _ _ Q); split; [lia|auto]|]. split; [lia|auto].
    + apply nd_snoc; [apply H|]. intros id w' Q. apply (j_act H _ _ Q).
    + intros cid' id Q. unfold set in Q. destruct (S cid =? cid') eqn:Z; [|apply (j_cm H) in Q; lia]. apply in_app_or in Q. destruct Q as [Q|[<-|[]]]; [apply (j_cm H) in Q; lia|lia].
    + intros id Q. apply in_app_or in Q. destruct Q as [Q|[Q|[]]]; [|injection Q as Q1 Q2; subst; cbn in Ok; destruct Ok; discriminate].
      destruct (j_S H _ Q) as [Z1 Z2]. assert (Z3 := proj1 (j_act H _ _ Q)). unfold set. split; [cbn; auto|]. intros cid' Hc Z.
      destruct (S cid =? cid'); [|now apply (Z2 cid')]. apply in_app_or in Z. destruct Z as [Z|[Z|[]]]; [now apply (Z2 (S cid))|lia].
    + intros id Q. destruct (j_tk H _ Q). split; [lia|]. intros Z. apply in_app_or in Z. destruct Z as [Z|[Z|[]]]; [auto|]. injection Z as Z1 Z2. subst. cbn in Ok. destruct Ok; discriminate.
    + rewrite cnt_app, cnt_cons, N. change (cnt isS []) with 0. cbn [Nat.add]. rewrite Nat.add_0_r. cbn [Nat.add] in P.
      clear - P. revert P. fl; auto.
      intros (P1 & P2). split; [auto|]. destruct P2 as [P2|(P2 & P3 & P4 & P5)]; auto. right. split; [auto|]. split; [auto|]. split; [auto|]. eapply order_tl; eauto; discriminate.
  - (* cancel the first task *)
    assert (N0 : cnt isS (remove_works (m_cmap m 0) (m_active m)) = 0) by (apply remove_allS; intros id Q; apply (j_S H _ Q)).
    constructor; auto; try apply H.
    + intros id w Q. apply in_remove in Q. now apply (j_act H).
    + apply nd_remove, H.
    + intros cid id. unfold set. destruct (0 =? cid); [intros []|apply (j_cm H)].
    + intros id Q. exfalso. apply in_cntS in Q. lia.
    + intros id Q. destruct (j_tk H _ Q) as [Z1 Z2]. split; [auto|]. intros Z. apply in_remove in Z. auto.
    + rewrite N0. clear - P. revert P. fl; auto; try lia.
      intros (P1 & P2). split; [lia|]. left. destruct P2 as [P2|(P2 & P3 & P4 & q1 & q2 & P5 & P6)]; [lia|]. exfalso.
      destruct q1 as [|x q1]; cbn in P5; [discriminate|]. injection P5 as _ P5. subst q. rewrite cnt_app, !cnt_cons in P4. cbn [isC] in P4. lia.
  - (* cancel others *)
    assert (N0 : cnt isS (remove_works (m_cmap m (S cid)) (m_active m)) = cnt isS (m_active m)).
    { apply remove_notS. intros id Q. apply (j_S H _ Q). discriminate. }
    constructor; auto; try apply H.
    + intros id w Q. apply in_remove in Q. now apply (j_act H).
    + apply nd_remove, H.
    + intros c id. unfold set. destruct (S cid =? c); [intros []|apply (j_cm H)].
    + intros id Q. apply in_remove in Q. destruct (j_S H _ Q) as [Z1 Z2]. unfold set. split; [auto|]. intros c Hc. destruct (S cid =? c); [intros []|auto].
    + intros id Q. destruct (j_tk H _ Q) as [Z1 Z2]. split; [auto|]. intros Z. apply in_remove in Z. auto.
    + rewrite N0. cbn [Nat.add] in P. clear - P. revert P. fl; auto.
      intros (P1 & P2). split; [auto|]. destruct P2 as [P2|(P2 & P3 & P4 & P5)]; auto. right. split; [auto|]. split; [auto|]. split; [auto|]. eapply order_tl; eauto; discriminate.
  - (* the second task *)
    subst w. assert (N : m_inv m 0 = None).
    { destruct (m_inv m 0) eqn:Q; auto. exfalso. clear - P. cbn [some] in P. revert P. fl; auto; lia. }
    rewrite N in P. cbn [some] in P.
    constructor; auto; try apply H.
    + intros i w Hi. unfold set. destruct i; [contradiction|]. cbn. apply (j_inv H); auto.
    + unfold set at 1. cbn [some Nat.eqb]. cbn [Nat.add] in P.
      clear - P. revert P. fl; auto; try lia.
  - constructor; auto; try apply H.
    + intros j w' Hj. unfold set. destruct (S i =? j); [intros [= <-]; auto|]. apply (j_inv H); auto.
    + unfold set at 1. cbn [Nat.eqb]. cbn [Nat.add] in P.
      clear - P. revert P. fl; auto.
      intros (P1 & P2). split; [auto|]. destruct P2 as [P2|(P2 & P3 & P4 & P5)]; auto. right. split; [auto|]. split; [auto|]. split; [auto|]. eapply order_tl; eauto; discriminate.
  - (* invoke the second task *)
    specialize (Ha eq_refl). constructor; auto; try apply H.
    rewrite cnt_app, (cnt_cons is0 0). change (cnt is0 []) with 0. cbn [is0 Nat.eqb]. cbn [Nat.add] in P. 
    clear - P Ha. revert P. fl; auto; try lia.
  - constructor; auto; try apply H.
    rewrite cnt_app, (cnt_cons is0 (S i)). change (cnt is0 []) with 0. cbn [is0 Nat.eqb]. cbn [Nat.add] in P. rewrite !Nat.add_0_r.
    clear - P. revert P. fl; auto.
    intros (P1 & P2). split; [auto|]. destruct P2 as [P2|(P2 & P3 & P4 & P5)]; auto. right. split; [auto|]. split; [auto|]. split; [auto|]. eapply order_tl; eauto; discriminate.
  - contradiction.
Qed.

(** The invocation and the cancellation together. *)
Lemma drain2_J : forall q m, JM (AInvoke 0 :: ACancel 0 :: q) (m_invoked m) m -> cnt isA q = 0 ->
  let m' := drain_one (drain_one m (AInvoke 0)) (ACancel 0) in JM q (m_invoked m') m'.
Proof.
  intros q m H Hn m'. unfold JM in *. pose proof (j_q H) as Hq. inversion Hq as [|? ? Ok Hq']; subst. inversion Hq' as [|? ? Ok2 Hq2]; subst. pose proof (j_ph H) as P. rewrite !cnt_cons in P. cbn [isA isD isI isC] in P.
  unfold m'. cbn [drain_one m_active m_cmap m_next m_inv m_ticked m_world m_invoked set_inv set_invoked].
  assert (N0 : cnt isS (remove_works (m_cmap m 0) (m_active m)) = 0) by (apply remove_allS; intros id Q; apply (j_S H _ Q)).
  constructor; auto; try apply H.
  + intros id w Q. apply in_remove in Q. now apply (j_act H).
  + apply nd_remove, H.
  + intros cid id. unfold set. destruct (0 =? cid); [intros []|apply (j_cm H)].
  + intros id Q. exfalso. apply in_cntS in Q. lia.
  + intros id Q. destruct (j_tk H _ Q) as [Z1 Z2]. split; [auto|]. intros Z. apply in_remove in Z. auto.
  + rewrite N0, cnt_app, (cnt_cons is0 0). change (cnt is0 []) with 0. cbn [is0 Nat.eqb].
    clear - P Hn. revert P. fl; auto; lia.
Qed.
Lemma drain_all : forall n q m, length q <= n -> JM q (m_invoked m) m ->
  let m' := fold_left drain_one q m in JM [] (m_invoked m') m'.
Proof.
  induction n as [|n IH]; intros q m Hn H.
  - destruct q; [exact H|cbn in Hn; lia].
  - destruct q as [|a q]; [exact H|]. cbn in Hn. cbn [fold_left].
    destruct (Nat.eq_dec (cnt isA q + cnt isS (m_active m)) 0) as [Z|Z]; [apply IH; [lia|]; apply drain_J; auto|].
    assert (Dec : a = AInvoke 0 \/ a <> AInvoke 0) by (destruct a as [| | |[|i]|]; auto; right; discriminate).
    destruct Dec as [->|Ne]; [|apply IH; [lia|]; apply drain_J; auto; contradiction].
    pose proof (j_ph H) as P. rewrite !cnt_cons in P. cbn [isA isD isI isC] in P.
    assert (O : order (AInvoke 0 :: q) /\ cnt isI q = 0).
    { clear - P Z. revert P. fl; auto; try lia; try tauto.
      intros (P1 & [P2|(P2 & P3 & P4 & P5)]); [lia|]. split; [auto|lia]. }
    destruct O as [(q1 & q2 & O1 & O2) O3]. destruct q1 as [|x q1]; cbn in O1; [injection O1 as O1|injection O1 as O0 O1]; subst q; [|rewrite cnt_app, !cnt_cons in O3; cbn [isI] in O3; lia].
    cbn [fold_left]. apply IH; [cbn in Hn; lia|]. apply drain2_J; auto.
Qed.
Lemma drain_fields : forall q (m : mach), m_queue (fold_left drain_one q m) = m_queue m /\ m_world (fold_left drain_one q m) = m_world m /\ m_ticked (fold_left drain_one q m) = m_ticked m.
Proof. induction q as [|a q IH]; intros m; cbn; auto. destruct (IH (drain_one m a)) as (-> & -> & ->). destruct a; auto. Qed.
Lemma drain_TI : forall t m m' had, TI (m_invoked m) m -> drain t m = (m', had) ->
  TI (m_invoked m') m' /\ m_queue m' = [] /\ m_world m' = m_world m /\ m_ticked m' = m_ticked m.
Proof.
  intros t m m' had (Hw & H & L & Wh) R. unfold drain in R. injection R as <- <-. set (m0 := set_sched m _ []).
  destruct (drain_fields (m_queue m) m0) as (F1 & F2 & F3). split; [|auto].
  assert (H' : JM [] (m_invoked (fold_left drain_one (m_queue m) m0)) (fold_left drain_one (m_queue m) m0)) by (apply (@drain_all (length (m_queue m))); auto).
  unfold TI. rewrite F1, F2. cbn [m0 set_sched m_queue m_world]. split; [exact Hw|]. split; [exact H'|]. split; [|exact Wh].
  intros Q. split; [reflexivity|]. pose proof (j_ph H') as P. clear - P Q. cbn in *. revert P. fl; auto; try lia; try tauto.
  intros (P1 & [P2|(P2 & P3 & P4 & q1 & q2 & P5 & _)]); [lia|]. destruct q1; discriminate.
Qed.

(** *** Requests. *)
Definition actof (now : nat) (r : req K) : action K :=
  match r with
  | QSched cid kd k => AActivate cid (hook now (new_work kd k))
  | QCancel cid => ACancel cid
  | QAddInv iid kd k => AAddInv iid (hook now (new_work kd k))
  | QInvoke iid => AInvoke iid
  | QCancelInv iid => ACancelInv iid
  end.
Definition keeps (m m' : mach) : Prop :=
  m_active m' = m_active m /\ m_cmap m' = m_cmap m /\ m_next m' = m_next m /\ m_inv m' = m_inv m /\ m_invoked m' = m_invoked m /\ m_ticked m' = m_ticked m.
Lemma keeps_refl : forall m, keeps m m. Proof. unfold keeps. auto 10. Qed.
Lemma keeps_trans : forall a b c, keeps a b -> keeps b c -> keeps a c.
Proof. unfold keeps. intros a b c (A1 & A2 & A3 & A4 & A5 & A6) (B1 & B2 & B3 & B4 & B5 & B6). repeat split; congruence. Qed.
Lemma performs_fields : forall rs m, m_queue (performs m rs) = m_queue m ++ map (actof (m_snow m)) rs /\ keeps m (performs m rs) /\ m_world (performs m rs) = m_world m.
Proof.
  induction rs as [|r rs IH]; intros m; cbn.
  - rewrite app_nil_r. split; [auto|]. split; [apply keeps_refl|auto].
  - destruct (IH (perform m r)) as (I1 & I2 & I3).
    assert (P : m_queue (perform m r) = m_queue m ++ [actof (m_snow m) r] /\ keeps m (perform m r) /\ m_world (perform m r) = m_world m /\ m_snow (perform m r) = m_snow m).
    { unfold keeps. destruct r; cbn; auto 10. }
    destruct P as (P1 & P2 & P3 & P4). fold (performs (perform m r) rs). rewrite I1, I3, P1, P3, P4, <- app_assoc. split; [auto|]. split; [eapply keeps_trans; eauto|auto].
Qed.
Definition plain (a : action K) : Prop := okq a /\ isA a = false /\ isD a = false /\ isI a = false /\ isC a = false.
Lemma hook_other : forall now kd k, okk k -> other (hook now (new_work kd k)).
Proof. intros now kd k H. destruct kd; cbn; auto. Qed.
Lemma fair_plain : forall now r, fair r -> plain (actof now r).
Proof.
  intros now r H. unfold plain. destruct r as [[|c] kd k|[|c]|[|i] kd k|[|i]|i]; cbn in *; try tauto; try (destruct H; congruence).
  - destruct H as [_ H]. split; [now apply hook_other|auto].
  - destruct H as [_ H]. split; [now apply hook_other|auto].
Qed.
Lemma plain_cnt : forall l, Forall plain l -> Forall okq l /\ cnt isA l = 0 /\ cnt isD l = 0 /\ cnt isI l = 0 /\ cnt isC l = 0.
Proof.
  induction 1 as [|a l (P1 & P2 & P3 & P4 & P5) H IH]; [auto 10|]. destruct IH as (I1 & I2 & I3 & I4 & I5). rewrite !cnt_cons, P2, P3, P4, P5. auto 10.
Qed.
Lemma J_plain : forall q l ids ac cm nx inv tk sub open sp dr, J q ids ac cm nx inv tk sub open sp dr -> Forall plain l ->
  J (q ++ l) ids ac cm nx inv tk sub open sp dr.
Proof.
  intros q l ids ac cm nx inv tk sub open sp dr H Hl. destruct (plain_cnt Hl) as (L1 & L2 & L3 & L4 & L5). constructor; try apply H.
  - apply Forall_app. split; [apply H|auto].
  - rewrite !cnt_app, L2, L3, L4, L5, !Nat.add_0_r. pose proof (j_ph H) as P. revert P. unfold phase. destruct sub, open, sp, dr; auto.
    intros (P1 & P2). split; [auto|]. destruct P2 as [P2|(P2 & P3 & P4 & q1 & q2 & P5 & P6)]; auto. right. split; [auto|]. split; [auto|]. split; [auto|].
    exists q1, (q2 ++ l). rewrite P5, <- app_assoc, cnt_app, P6, L2. auto.
Qed.
Lemma J_close : forall q ids ac cm nx inv tk sp dr, J q ids ac cm nx inv tk true true sp dr ->
  J (q ++ [AInvoke 0; ACancel 0]) ids ac cm nx inv tk true false sp dr.
Proof.
  intros q ids ac cm nx inv tk sp dr H. constructor; try apply H.
  - apply Forall_app. split; [apply H|repeat constructor].
  - rewrite !cnt_app. change (cnt isA [AInvoke 0; ACancel 0]) with 0. change (cnt isD [AInvoke 0; ACancel 0]) with 0. change (cnt isI [AInvoke 0; ACancel 0]) with 1. change (cnt isC [AInvoke 0; ACancel 0]) with 1.
    pose proof (j_ph H) as P. revert P. unfold phase. destruct sp, dr; auto; try lia. intros (P1 & P2 & P3 & P4). split; [lia|]. right. split; [lia|]. split; [lia|]. split; [lia|].
    exists q, []. auto.
Qed.
Lemma TI_move : forall ids m g' rs, TI ids m -> move (m_world m) g' rs -> Wd down (g_cmds g') g' -> TI ids (performs (set_world m g') rs).
Proof.
  intros ids m g' rs (Hw & H & L & Wh) (M1 & M2 & M3 & M4) W'.
  destruct (performs_fields rs (set_world m g')) as (F1 & (F2 & F3 & F4 & F5 & F6 & F7) & F8). unfold TI, JM. rewrite F1, F2, F3, F4, F5, F7, F8. cbn [set_world m_queue m_active m_cmap m_next m_inv m_ticked m_world m_snow].
  rewrite M1, M2, M3. unfold JM in H. destruct M4 as [[P1 P2]|(P1 & P2 & P3 & r1 & r2 & -> & P4 & P5)].
  - assert (Pl : Forall plain (map (actof (m_snow m)) rs)) by (apply Forall_forall; intros a Q; apply in_map_iff in Q; destruct Q as (r & <- & Q); apply fair_plain; rewrite Forall_forall in P2; auto).
    rewrite P1. split; [auto|]. split; [now apply J_plain|]. split; [|auto]. destruct (plain_cnt Pl) as (_ & L2 & L3 & _). intros Q. rewrite !cnt_app, L2, L3, !Nat.add_0_r. now apply L.
  - assert (Pl : forall l, Forall (@fair X) l -> Forall plain (map (actof (m_snow m)) l)).
    { intros l Hl. apply Forall_forall. intros a Q. apply in_map_iff in Q. destruct Q as (r & <- & Q). apply fair_plain. rewrite Forall_forall in Hl. auto. }
    rewrite P3. split; [discriminate|]. rewrite P1, P2 in *. rewrite !map_app. cbn [map teardown actof]. split; [|split; [|auto]].
    + rewrite !app_assoc. apply J_plain; [|auto]. apply J_close, J_plain; auto.
    + destruct (plain_cnt (Pl _ P4)) as (_ & A2 & A3 & _). destruct (plain_cnt (Pl _ P5)) as (_ & B2 & B3 & _).
      intros Q. rewrite !cnt_app, A2, A3, B2, B3. change (cnt isA [AInvoke 0; ACancel 0]) with 0. change (cnt isD [AInvoke 0; ACancel 0]) with 0. destruct (L Q) as [L1 L2]. split; lia.
Qed.
Lemma TI_log : forall ids m e, TI ids m -> TI ids (SchedModel.log m e). Proof. intros ids m e H. exact H. Qed.

(** *** The tasks of others. *)
Lemma call_other : forall ids o x t m m' k' d, TI ids m -> SchedModel.call run o (KOther x) t m = (m', k', d) ->
  TI ids m' /\ okk k' /\ keeps m m'.
Proof.
  intros ids o x t m m' k' d H R. unfold SchedModel.call in R. cbn [EvModel.run] in R.
  destruct (user x t (g_log (m_world m))) as [[x' dn] l] eqn:Eu. destruct (many l (m_world m)) as [g' rs] eqn:Em. injection R as <- <- <-.
  assert (Hf : Forall (@fair_act A X) l) by (pose proof (Huser x t (g_log (m_world m))) as Q; rewrite Eu in Q; exact Q).
  destruct H as (Hw & H1 & H2 & H3). destruct (many_Wd H3 Hf Em) as [W' M]. split; [|split].
  - change (set_world (SchedModel.log m (ERan o t)) g') with (SchedModel.log (set_world m g') (ERan o t)).
    apply (@TI_move ids (SchedModel.log m (ERan o t)) g' rs); [split; auto|exact M|exact W'].
  - exists x'. reflexivity.
  - destruct (performs_fields rs (set_world (SchedModel.log m (ERan o t)) g')) as (_ & F & _). exact F.
Qed.
Lemma repeating_other : forall fuel ids o t i cap imm consumed cur k res execs m m' w' r, TI ids m -> okk k ->
  repeating run fuel o t i cap imm consumed cur k res execs m = Some (m', w', r) -> TI ids m' /\ other w' /\ keeps m m'.
Proof.
  induction fuel as [|f IH]; intros ids o t i cap imm consumed cur k res execs m m' w' r H Hk R; cbn [repeating] in R.
  - destruct (_ || imm); [discriminate|]. injection R as <- <- <-. split; [auto|]. split; [exact Hk|apply keeps_refl].
  - destruct (_ || imm); [|injection R as <- <- <-; split; [auto|]; split; [exact Hk|apply keeps_refl]].
    destruct (execs <? cap).
    + destruct Hk as [x ->]. destruct (SchedModel.call run o (KOther x) t m) as [[m1 k1] r1] eqn:Ec. destruct (@call_other ids o x t m m1 k1 r1 H Ec) as (H1 & K1 & P1).
      destruct imm; destruct (IH _ _ _ _ _ _ _ _ _ _ _ _ _ _ _ H1 K1 R) as (H2 & O2 & P2); split; auto; split; auto; eapply keeps_trans; eauto.
    + destruct imm; destruct (IH _ _ _ _ _ _ _ _ _ _ _ _ _ _ _ H Hk R) as (H2 & O2 & P2); split; auto.
Qed.
Lemma work_other : forall fuel ids o w t m m' w' r, TI ids m -> other w -> work_tick run fuel o w t m = Some (m', w', r) ->
  TI ids m' /\ other w' /\ keeps m m'.
Proof.
  intros fuel ids o w t m m' w' r H Hw R. destruct w as [on cur d [k|]|[k|]|imm co cu i cap k|la k|k]; cbn [work_tick other oko] in *.
  - destruct (_ <=? _); [|injection R as <- <- <-; split; [auto|]; split; [exact Hw|apply keeps_refl]].
    destruct Hw as [x ->]. destruct (SchedModel.call run o (KOther x) t m) as [[m1 k1] r1] eqn:Ec. destruct (@call_other ids o x t m m1 k1 r1 H Ec) as (H1 & K1 & P1). injection R as <- <- <-. split; [auto|]. split; [exact I|auto].
  - destruct (_ <=? _); injection R as <- <- <-; (split; [auto|]; split; [exact I|apply keeps_refl]).
  - destruct Hw as [x ->]. destruct (SchedModel.call run o (KOther x) t m) as [[m1 k1] r1] eqn:Ec. destruct (@call_other ids o x t m m1 k1 r1 H Ec) as (H1 & K1 & P1). injection R as <- <- <-. split; [auto|]. split; [exact I|auto].
  - injection R as <- <- <-. split; [auto|]. split; [exact I|apply keeps_refl].
  - eapply repeating_other; eauto.
  - destruct Hw as [x ->]. destruct (SchedModel.call run o (KOther x) t m) as [[m1 k1] r1] eqn:Ec. destruct (@call_other ids o x t m m1 k1 r1 H Ec) as (H1 & K1 & P1). injection R as <- <- <-. split; [auto|]. split; [exact K1|auto].
  - destruct Hw as [x ->]. destruct (SchedModel.call run o (KOther x) t m) as [[m1 k1] r1] eqn:Ec. destruct (@call_other ids o x t m m1 k1 r1 H Ec) as (H1 & K1 & P1). injection R as <- <- <-. split; [auto|]. split; [exact K1|auto].
Qed.

(** *** The scheduled tasks. *)
Lemma find_in : forall id (w : wk) l, find_work id l = Some w -> In (id, w) l.
Proof.
  intros id w l. unfold find_work. induction l as [|[j v] l IH]; cbn; [discriminate|]. destruct (Nat.eqb_spec j id) as [->|]; [intros [= ->]; now left|]. intros Q. right. auto.
Qed.
Lemma in_put : forall id (w : wk) l j v, In (j, v) (put_work id w l) -> (j = id /\ v = w) \/ (In (j, v) l /\ j <> id).
Proof.
  intros id w l j v H. unfold put_work in H. apply in_map_iff in H. destruct H as ([i u] & H1 & H2). cbn in H1. destruct (Nat.eqb_spec i id) as [->|]; [left; injection H1; auto|]. right. injection H1 as -> ->. auto.
Qed.
Lemma put_fst : forall id (w : wk) l, map fst (put_work id w l) = map fst l.
Proof. intros id w l. unfold put_work. rewrite map_map. apply map_ext. intros [i u]. cbn. destruct (Nat.eqb_spec i id); auto. Qed.
Lemma put_absent : forall id (w : wk) l, ~ In id (map fst l) -> put_work id w l = l.
Proof.
  induction l as [|[i u] l IH]; cbn; auto. intros H. destruct (Nat.eqb_spec i id) as [->|]; [tauto|]. f_equal. apply IH. tauto.
Qed.
Lemma put_cnt : forall id w w' l, NoDup (map fst l) -> In (id, w) l ->
  cnt isS (put_work id w' l) + (if isS (id, w) then 1 else 0) = cnt isS l + (if isS (id, w') then 1 else 0).
Proof.
  intros id w w'. induction l as [|[i u] l IH]; intros N; [intros []|]. inversion N; subst. intros Q.
  destruct (Nat.eqb_spec i id) as [->|Ne].
  - assert (u = w). { destruct Q as [Q|Q]; [now injection Q|]. destruct H1. change id with (fst (id, w)). now apply in_map. } subst u.
    cbn [put_work map fst]. rewrite Nat.eqb_refl. fold (put_work id w' l). rewrite (put_absent id w' l H1), !cnt_cons. lia.
  - destruct Q as [Q|Q]; [congruence|]. specialize (IH H2 Q). cbn [put_work map fst]. replace (i =? id) with false by (symmetry; now apply Nat.eqb_neq).
    fold (put_work id w' l). rewrite !cnt_cons. lia.
Qed.
Lemma J_put : forall q ids ac cm nx inv tk sub open sp dr id w w', J q ids ac cm nx inv tk sub open sp dr ->
  In (id, w) ac -> other w -> other w' -> J q ids (put_work id w' ac) cm nx inv tk sub open sp dr /\ cnt isS (put_work id w' ac) = cnt isS ac.
Proof.
  intros q ids ac cm nx inv tk sub open sp dr id w w' H Hi Ho Ho'.
  assert (E : cnt isS (put_work id w' ac) = cnt isS ac).
  { pose proof (@put_cnt id w w' ac (j_nd H) Hi) as Q. rewrite !other_notS in Q; auto. lia. }
  assert (NS : forall j, In (j, wS) (put_work id w' ac) -> In (j, wS) ac).
  { intros j Q. apply in_put in Q. destruct Q as [[-> Q]|[Q _]]; auto. subst w'. destruct Ho'. discriminate. }
  split; [|exact E]. constructor; try apply H.
  - intros j v Q. apply in_put in Q. destruct Q as [[-> ->]|[Q _]]; [split; [apply (j_act H _ _ Hi)|auto]|now apply (j_act H)].
  - rewrite put_fst. apply H.
  - intros j Q. apply (j_S H), NS, Q.
  - intros j Q. destruct (j_tk H _ Q) as [Z1 Z2]. split; [auto|]. intros Z. apply Z2, NS, Z.
  - rewrite E. apply H.
Qed.
Lemma TI_put : forall ids m id w w', TI ids m -> In (id, w) (m_active m) -> other w -> other w' -> TI ids (set_active m (put_work id w' (m_active m))).
Proof.
  intros ids m id w w' (Hw & H & L & Wh) Hi Ho Ho'. destruct (@J_put _ _ _ _ _ _ _ _ _ _ _ id w w' H Hi Ho Ho') as [H' E]. split; [exact Hw|]. split; [exact H'|]. split; [|exact Wh].
  unfold late. cbn [set_active m_queue m_active]. rewrite E. exact L.
Qed.
Lemma TI_spawn : forall ids m id t m' k' d, TI ids m -> In (id, wS) (m_active m) ->
  SchedModel.call run (OWork id) KSpawn t m = (m', k', d) ->
  TI ids (set_active m' (put_work id (WImmediate None) (m_active m'))) /\ keeps m m'.
Proof.
  intros ids m id t m' k' d (Hw & H & L & Wh) Hi R. unfold SchedModel.call in R. cbn [EvModel.run] in R.
  set (g1 := with_tasks (push (m_world m) CSpawn) true (g_dropped (m_world m))) in R.
  destruct (performs_fields [QAddInv 0 KInvoked KDespawn] (set_world (SchedModel.log m (ERan (OWork id) t)) g1)) as (F1 & (F2 & F3 & F4 & F5 & F6 & F7) & F8).
  set (m1 := performs _ _) in *. injection R as <- <- <-. cbn [map actof new_work hook] in F1. cbn [SchedModel.log set_world m_queue m_active m_cmap m_next m_inv m_ticked m_world m_snow m_invoked] in *.
  assert (Hpos := in_cntS _ _ Hi). pose proof (j_ph H) as P.
  assert (Hi0 : cnt is0 ids = 0) by (destruct (cnt is0 ids) eqn:Q; auto; destruct L as [_ L]; lia).
  assert (Fl : g_sub (m_world m) = true /\ g_spawned (m_world m) = false /\ g_dropped (m_world m) = false).
  { revert P. clear - Hpos. unfold phase. destruct (g_sub (m_world m)), (g_open (m_world m)), (g_spawned (m_world m)), (g_dropped (m_world m)); auto; lia. }
  destruct Fl as (Fl1 & Fl2 & Fl3).
  pose proof (@put_cnt id wS (WImmediate None) (m_active m) (j_nd H) Hi) as E. change (isS (id, wS)) with true in E. change (isS (id, WImmediate None)) with false in E. cbn match in E.
  assert (NS : forall j, In (j, wS) (put_work id (WImmediate None) (m_active m)) -> In (j, wS) (m_active m)).
  { intros j Q. apply in_put in Q. destruct Q as [[-> Q]|[Q _]]; try discriminate; auto. }
  split; [|unfold keeps; auto 10]. unfold TI, JM. cbn [set_active m_queue m_active m_cmap m_next m_inv m_ticked m_world].
  rewrite F1, F2, F3, F4, F5, F7, F8. split; [exact Hw|]. split; [|split].
  - constructor; try apply H.
    + apply Forall_app. split; [apply H|]. repeat constructor.
    + intros j v Q. apply in_put in Q. destruct Q as [[-> ->]|[Q _]]; [split; [apply (j_act H _ _ Hi)|right; exact I]|now apply (j_act H)].
    + rewrite put_fst. apply H.
    + intros j Q. apply (j_S H), NS, Q.
    + intros j Q. destruct (j_tk H _ Q) as [Z1 Z2]. split; [auto|]. intros Z. apply Z2, NS, Z.
    + rewrite !cnt_app. change (cnt isA [AAddInv 0 (WInvoked KDespawn)]) with 0. change (cnt isD [AAddInv 0 (WInvoked KDespawn)]) with 1. change (cnt isI [AAddInv 0 (WInvoked KDespawn)]) with 0. change (cnt isC [AAddInv 0 (WInvoked KDespawn)]) with 0.
      cbn [g1 with_tasks push with_cmds g_sub g_open g_spawned g_dropped]. rewrite Fl1, Fl3. rewrite Fl1, Fl2, Fl3 in P. unfold phase in *.
      destruct (g_open (m_world m)); [lia|]. destruct P as (P1 & [P2|(P2 & P3 & P4 & P5)]); lia.
  - intros Q. lia.
  - exact (spawn_Wd Wh Fl1 Fl2).
Qed.

Lemma tick_ids_TI : forall fuel t l fin m m' fin', TI (m_invoked m) m -> (forall id, In id fin -> ~ In (id, wS) (m_active m)) ->
  tick_ids run fuel t l fin m = Some (m', fin') ->
  TI (m_invoked m') m' /\ m_invoked m' = m_invoked m /\ m_ticked m' = m_ticked m /\ m_next m' = m_next m /\ map fst (m_active m') = map fst (m_active m) /\
  (forall id, In id fin' -> ~ In (id, wS) (m_active m')) /\ (forall id, In id l -> ~ In (id, wS) (m_active m')) /\
  (forall id, In (id, wS) (m_active m') -> In (id, wS) (m_active m)).
Proof.
  intros fuel t. induction l as [|id l IH]; intros fin m m' fin' H Hf R; cbn [tick_ids] in R.
  - injection R as <- <-. split; [auto|]. split; [auto|]. split; [auto|]. split; [auto|]. split; [auto|]. split; [auto|]. split; [intros i []|auto].
  - destruct (find_work id (m_active m)) as [w|] eqn:Ef.
    2:{ destruct (IH _ _ _ _ H Hf R) as (I1 & I2 & I3 & I4 & I5 & I6 & I7 & I8). do 6 (split; [auto|]). split; [|auto]. intros i [<-|Q]; auto.
        intros Z. apply I8 in Z. assert (In id (map fst (m_active m))) by (change id with (fst (id, wS)); now apply in_map).
        clear - Ef H0. unfold find_work in Ef. apply in_map_iff in H0. destruct H0 as ([j v] & Z1 & Z2). cbn in Z1. subst j.
        destruct (find _ _) as [y|] eqn:Q; [discriminate|]. pose proof (find_none _ _ Q _ Z2) as Y. cbn in Y. rewrite Nat.eqb_refl in Y. discriminate. }
    assert (Hin := find_in _ _ Ef). destruct (work_tick run fuel (OWork id) w t (SchedModel.log m (EWork id))) as [[[m1 w1] r1]|] eqn:Ew; [|discriminate].
    assert (St : TI (m_invoked m1) (set_active m1 (put_work id w1 (m_active m1))) /\ keeps m m1 /\ w1 <> wS).
    { destruct H as (Hw & H & L & Wh). destruct (proj2 (j_act H _ _ Hin)) as [->|Ho].
      - unfold wS in Ew. cbn [work_tick] in Ew. destruct (SchedModel.call run (OWork id) KSpawn t (SchedModel.log m (EWork id))) as [[m2 k2] r2] eqn:Ec. injection Ew as <- <- <-.
        destruct (@TI_spawn (m_invoked m) (SchedModel.log m (EWork id)) id t m2 k2 r2) as [S1 S2]; auto; [split; auto|]. assert (E : m_invoked m2 = m_invoked m) by apply S2.
        rewrite E. split; [auto|]. split; [exact S2|discriminate].
      - destruct (@work_other fuel (m_invoked m) (OWork id) w t (SchedModel.log m (EWork id)) m1 w1 r1) as (S1 & S2 & S3); auto; [split; auto|].
        assert (E : m_invoked m1 = m_invoked m) by apply S3. assert (Ea : m_active m1 = m_active m) by apply S3. rewrite E. split; [|split; [exact S3|intros ->; destruct S2; discriminate]].
        apply (@TI_put _ _ id w); auto. now rewrite Ea. }
    destruct St as (S1 & S2 & S3). set (m2 := set_active m1 _) in *.
    assert (Ea : m_active m1 = m_active m) by apply S2.
    assert (NS : forall j, In (j, wS) (m_active m2) -> In (j, wS) (m_active m) /\ j <> id).
    { intros j Q. unfold m2 in Q. cbn [set_active m_active] in Q. apply in_put in Q. destruct Q as [[-> Q]|[Q1 Q2]]; [congruence|]. rewrite Ea in Q1. auto. }
    destruct (IH (if r1 then fin ++ [id] else fin) m2 m' fin') as (I1 & I2 & I3 & I4 & I5 & I6 & I7 & I8); auto.
    { intros j Q Z. apply NS in Z. destruct Z as [Z1 Z2]. destruct r1; [apply in_app_or in Q; destruct Q as [Q|[<-|[]]]; [|congruence]|]; now apply (Hf j). }
    change (m_invoked m2) with (m_invoked m1) in I2. change (m_ticked m2) with (m_ticked m1) in I3. change (m_next m2) with (m_next m1) in I4.
    unfold m2 in I5. cbn [set_active m_active] in I5. rewrite put_fst, Ea in I5. destruct S2 as (K1 & K2 & K3 & K4 & K5 & K6).
    split; [auto|]. split; [congruence|]. split; [congruence|]. split; [congruence|]. split; [congruence|]. split; [auto|]. split.
    + intros j [<-|Q]; auto. intros Z. apply I8, NS in Z. tauto.
    + intros j Z. apply I8, NS in Z. tauto.
Qed.
Lemma log_all : forall fin (m : mach) (f : nat -> ev), let m' := fold_left (fun m id => SchedModel.log m (f id)) fin m in
  m_queue m' = m_queue m /\ keeps m m' /\ m_world m' = m_world m.
Proof.
  induction fin as [|x l IH]; intros m f; cbn; [split; [auto|]; split; [apply keeps_refl|auto]|]. destruct (IH (SchedModel.log m (f x)) f) as (I1 & I2 & I3). split; [auto|]. split; [exact I2|auto].
Qed.
Lemma scheduled_TI : forall fuel t m m' nt, TI (m_invoked m) m -> tick_scheduled run fuel t m = Some (m', nt) ->
  TI (m_invoked m') m' /\ (nt = true -> m_queue m' = m_queue m /\ m_invoked m' = m_invoked m /\ m_world m' = m_world m /\ forall id, ~ In (id, wS) (m_active m')).
Proof.
  intros fuel t m m' nt H R. unfold tick_scheduled in R. destruct (tick_ids run fuel t (due m) [] m) as [[m1 fin]|] eqn:E; [|discriminate]. injection R as R <-.
  assert (N0 : forall id, In id [] -> ~ In (id, wS) (m_active m)) by (intros ? []); destruct (@tick_ids_TI fuel t (due m) [] m m1 fin H N0 E) as (I1 & I2 & I3 & I4 & I5 & I6 & I7 & I8).
  set (m2 := set_active (set_ticked m1 (m_ticked m1 ++ due m)) (remove_works fin (m_active m1))) in *.
  destruct (log_all fin m2 (fun id => EDone id)) as (L1 & (L2 & L3 & L4 & L5 & L6 & L7) & L8). rewrite R in *. 
  assert (Hc : cnt isS (remove_works fin (m_active m1)) = cnt isS (m_active m1)) by (apply remove_notS; intros id Q Z; now apply (I6 id)).
  split.
  - destruct I1 as (Hw & J1 & La & Wh). unfold TI, JM. rewrite L1, L2, L3, L4, L5, L6, L7, L8. cbn [m2 set_active set_ticked m_queue m_active m_cmap m_next m_inv m_ticked m_world m_invoked].
    split; [auto|]. split; [|split; [|auto]].
    + constructor; try apply J1.
      * intros id w Q. apply in_remove in Q. now apply (j_act J1).
      * apply nd_remove, J1.
      * intros id Q. apply in_remove in Q. now apply (j_S J1).
      * intros id Q. apply in_app_or in Q. destruct Q as [Q|Q].
        -- destruct (j_tk J1 _ Q) as [Z1 Z2]. split; [auto|]. intros Z. apply in_remove in Z. auto.
        -- split; [|intros Z; apply in_remove in Z; now apply (I7 id)]. unfold due in Q. apply filter_In in Q. destruct Q as [Q _]. rewrite <- I5 in Q. apply in_map_iff in Q. destruct Q as ([j v] & <- & Q). apply (j_act J1 _ _ Q).
      * rewrite Hc. apply J1.
    + unfold late. rewrite Hc. exact La.
  - destruct (due m) as [|x l] eqn:Ed; [|discriminate]. intros _. cbn [tick_ids] in E. injection E as <- <-. rewrite L1, L2, L6, L8. split; [auto|]. split; [auto|]. split; [auto|].
    intros id Q. cbn [m2 set_active m_active] in Q. apply in_remove in Q.
    destruct H as (_ & J1 & _). assert (Hid : In id (map fst (m_active m))) by (change id with (fst (id, wS)); now apply in_map).
    destruct (mem id (m_ticked m)) eqn:Z.
    + unfold mem in Z. apply existsb_exists in Z. destruct Z as (y & Y1 & Y2). apply Nat.eqb_eq in Y2. subst y. now apply (j_tk J1 _ Y1).
    + assert (In id (due m)) by (unfold due; apply filter_In; split; auto; now rewrite Z). rewrite Ed in H. destruct H.
Qed.

(** *** The invoked tasks. *)
Lemma J_skip : forall q i ids ac cm nx inv tk sub open sp dr, J q (i :: ids) ac cm nx inv tk sub open sp dr -> late q (i :: ids) ac ->
  inv i = None -> J q ids ac cm nx inv tk sub open sp dr.
Proof.
  intros q i ids ac cm nx inv tk sub open sp dr H L N. constructor; try apply H. pose proof (j_ph H) as P. rewrite (cnt_cons is0) in P.
  destruct i as [|i]; [|exact P]. cbn [is0 Nat.eqb] in P. destruct L as [L1 L2]; [rewrite cnt_cons; cbn; lia|]. rewrite N, L1 in *. cbn [some] in *.
  revert P. unfold phase. destruct sub, open, sp, dr; auto; try lia.
Qed.
Lemma late_skip : forall q i ids ac, late q (i :: ids) ac -> late q ids ac.
Proof. intros q i ids ac L Q. apply L. rewrite cnt_cons. lia. Qed.
Lemma J_set_inv : forall q i ids ac cm nx inv tk sub open sp dr o, J q (S i :: ids) ac cm nx inv tk sub open sp dr -> (forall w, o = Some w -> other w) ->
  J q ids ac cm nx (set inv (S i) o) tk sub open sp dr.
Proof.
  intros q i ids ac cm nx inv tk sub open sp dr o H Ho. constructor; try apply H.
  - intros j w Hj. unfold set. destruct (S i =? j); [intros ->; auto|]. now apply (j_inv H).
Qed.
Lemma invoked_TI : forall fuel t ids m m', TI ids m -> m_invoked m = [] -> run_invoked run fuel t ids m = Some m' ->
  TI [] m' /\ m_invoked m' = [] /\ m_active m' = m_active m.
Proof.
  intros fuel t. induction ids as [|i ids IH]; intros m m' H Hn R; cbn [run_invoked] in R.
  - injection R as <-. auto.
  - destruct (m_inv m i) as [w|] eqn:Ei.
    + destruct (work_tick run fuel (OInv i) w t m) as [[[m1 w1] r1]|] eqn:Ew; [|discriminate].
      assert (St : TI ids (set_inv m1 (set (m_inv m1) i (if r1 then None else Some w1))) /\ m_invoked m1 = [] /\ m_active m1 = m_active m).
      { destruct i as [|i].
        - destruct H as (Hw & H & L & Wh). destruct (j_inv0 H) as [Z|Z]; [congruence|]. rewrite Z in Ei. injection Ei as <-.
          unfold wD in Ew. cbn [work_tick] in Ew. unfold SchedModel.call in Ew. cbn [EvModel.run] in Ew. injection Ew as <- <- <-.
          set (g1 := with_tasks (push (m_world m) CDrop) (g_spawned (m_world m)) true). cbn [performs fold_left].
          pose proof (j_ph H) as P. rewrite (cnt_cons is0), Z in P. cbn [is0 Nat.eqb some] in P. destruct L as [L1 L2]; [rewrite cnt_cons; cbn; lia|].
          assert (Fl : g_sub (m_world m) = true /\ g_open (m_world m) = false /\ g_spawned (m_world m) = true /\ g_dropped (m_world m) = false /\ cnt is0 ids = 0 /\ cnt isI (m_queue m) = 0).
          { revert P. clear - L1. unfold phase. destruct (g_sub (m_world m)), (g_open (m_world m)), (g_spawned (m_world m)), (g_dropped (m_world m)); try lia; intros (P1 & P2 & P3); repeat split; lia. }
          destruct Fl as (F1 & F2 & F3 & F4 & F5 & F6). split; [|split; [exact Hn|reflexivity]].
          unfold TI, JM. cbn [set_inv set_world SchedModel.log m_queue m_active m_cmap m_next m_inv m_ticked m_world]. split; [exact Hw|]. split; [|split].
          + constructor; try apply H.
            * left. reflexivity.
            * intros j w Hj. unfold set. destruct j; [contradiction|]. cbn. now apply (j_inv H).
            * unfold set at 1. cbn [Nat.eqb some]. cbn [g1 with_tasks push with_cmds g_sub g_open g_spawned g_dropped]. rewrite F1, F2, F3. unfold phase. lia.
          + intros Q. lia.
          + apply (despawn_Wd Wh F2 F3).
        - assert (Ho : other w) by (destruct H as (_ & H & _); apply (j_inv H) in Ei; auto).
          destruct (work_other _ _ _ _ H Ho Ew) as (S1 & S2 & (K1 & K2 & K3 & K4 & K5 & K6)). split; [|split; congruence].
          destruct S1 as (Hw & J1 & L & Wh). split; [exact Hw|]. split; [|split; [exact (late_skip L)|exact Wh]].
          apply J_set_inv; auto. intros v Q. destruct r1; [discriminate|]. now injection Q as <-. }
      destruct St as (S1 & S2 & S3). destruct (IH _ _ S1 S2 R) as (I1 & I2 & I3). split; [auto|]. split; [auto|]. now rewrite I3.
    + apply IH in R; auto. destruct H as (Hw & H & L & Wh). split; [exact Hw|]. split; [eapply J_skip; eauto|]. split; [exact (late_skip L)|exact Wh].
Qed.

(** *** A tick. *)
Lemma rounds_TI : forall n fuel t m m', TI [] m -> m_invoked m = [] -> rounds run n fuel t m = Fine m' ->
  TI [] m' /\ m_invoked m' = [] /\ m_queue m' = [] /\ forall id, ~ In (id, wS) (m_active m').
Proof.
  intros n fuel t. induction n as [|n IH]; intros m m' H Hn R; cbn [rounds] in R;
    destruct (drain t m) as [m1 had] eqn:Ed; destruct (tick_scheduled run fuel t m1) as [[m2 nt]|] eqn:Et; try discriminate;
    destruct (execute_invoked run fuel t m2) as [m3|] eqn:Ee; try discriminate;
    rewrite <- Hn in H; destruct (@drain_TI _ _ _ _ H Ed) as (D1 & D2 & D3 & D4);
    destruct (@scheduled_TI _ _ _ _ _ D1 Et) as (S1 & S2); unfold execute_invoked in Ee;
    destruct (@invoked_TI fuel t (m_invoked m2) (set_invoked m2 []) m3 S1 eq_refl Ee) as (I1 & I2 & I3).
  all: assert (Last : nt && negb had = true -> m_queue m3 = [] /\ forall id, ~ In (id, wS) (m_active m3)).
  1, 3: intros Q; apply andb_true_iff in Q; destruct Q as [Q1 Q2]; apply negb_true_iff in Q2; destruct (S2 Q1) as (Z1 & Z2 & Z3 & Z4);
    assert (Eq : m_queue m = []) by (unfold drain in Ed; destruct (m_queue m); auto; injection Ed as _ Ed; congruence);
    assert (Ei : m_invoked m2 = []) by (rewrite Z2; unfold drain in Ed; rewrite Eq in Ed; injection Ed as <- _; exact Hn);
    rewrite Ei in Ee; cbn in Ee; injection Ee as <-; split; [cbn; congruence|exact Z4].
  - destruct (nt && negb had); [|discriminate]. injection R as <-. destruct (Last eq_refl). auto.
  - destruct (nt && negb had); [injection R as <-; destruct (Last eq_refl); auto|]. eapply IH; eauto.
Qed.
Lemma tick_TI : forall fuel t m m', TI [] m -> m_invoked m = [] -> tick_to run fuel t m = Fine m' ->
  TI [] m' /\ m_invoked m' = [] /\ m_queue m' = [] /\ forall id, ~ In (id, wS) (m_active m').
Proof.
  intros fuel t m m' (Hw & H & L & Wh) Hn R. unfold tick_to in R. eapply rounds_TI; [| |exact R].
  - split; [exact Hw|]. split; [|split; [exact L|exact Wh]]. constructor; try apply H. intros id [].
  - exact Hn.
Qed.
Lemma flush_TI : forall m, TI [] m -> TI [] (flush down m) /\ keeps m (flush down m) /\ g_cmds (m_world (flush down m)) = [] /\
  Wd down [] (m_world (flush down m)) /\ exists rs : list (req K), move (m_world m) (m_world (flush down m)) rs.
Proof.
  intros m H. unfold flush. destruct (apply_all down (g_cmds (m_world m)) (with_cmds (m_world m) [])) as [g rs] eqn:E.
  assert (Wh := proj2 (proj2 (proj2 H))). destruct (apply_all_Wd Hdown (Wd_cmds [] Wh) E) as (W' & M & C). cbn in C.
  assert (M' : move (m_world m) g rs) by exact M. rewrite <- C in W'.
  destruct (performs_fields rs (set_world m g)) as (_ & F2 & F3). rewrite F3. cbn [set_world m_world].
  split; [apply TI_move; auto|]. split; [exact F2|]. split; [auto|]. split; [rewrite C in W'; auto|eauto].
Qed.
End Ev.

Section Top.
Variables A X : Type.
Notation K := (clos X).
Notation G := (world A).
Notation call := (ncall A Empty_set).
Notation mach := (SchedModel.mach K G).
Variable down : list call -> bool * list (req K).
Hypothesis Hdown : fair_down down.
Variable user : X -> nat -> list (lev A) -> X * bool * list (oact A X).
Hypothesis Huser : fair_user user.
Notation run := (EvModel.run user).
Definition Top (m : mach) : Prop := (forall was, (g_open (m_world m) = true -> was = true) -> TI down was [] m) /\ m_invoked m = [] /\ g_cmds (m_world m) = [].
Lemma Top_of : forall was m, TI down was [] m -> m_invoked m = [] -> g_cmds (m_world m) = [] -> Top m.
Proof. intros was m (_ & H) H1 H2. split; [|auto]. intros w Hw. split; auto. Qed.
(** After a tick and before its commands are applied. *)
Lemma tick_Top : forall fuel t m m1, Top m -> tick_to run fuel t m = Fine m1 -> TI down (g_open (m_world m)) [] m1 /\ m_invoked m1 = [] /\
  (g_sub (m_world m1) = true -> g_open (m_world m1) = true -> g_spawned (m_world m1) = true) /\
  (g_open (m_world m1) = false -> g_spawned (m_world m1) = true -> g_dropped (m_world m1) = true).
Proof.
  intros fuel t m m1 (H & Hn & Hc) R. specialize (H (g_open (m_world m)) (fun e => e)).
  destruct (tick_TI Huser _ _ H Hn R) as (T1 & T2 & T3 & T4). split; [auto|]. split; [auto|].
  destruct T1 as (_ & J1 & _). pose proof (j_ph J1) as P. rewrite T3 in P. cbn in P.
  assert (Z : cnt (@isS X) (m_active m1) = 0) by (destruct (cnt (@isS X) (m_active m1)) eqn:Q; auto; destruct (@cntS_in X (m_active m1)) as [id Hid]; [lia|]; destruct (T4 id Hid)).
  rewrite Z in P. revert P. unfold phase. destruct (g_sub (m_world m1)), (g_open (m_world m1)), (g_spawned (m_world m1)), (g_dropped (m_world m1)); cbn; auto; try lia; try tauto.
Qed.
Lemma estep_Top : forall fuel m a m', Top m -> match a with EDo l => Forall (@fair_act A X) l | _ => True end -> estep down user fuel m a = Fine m' -> Top m'.
Proof.
  intros fuel m a m' H Hf R. destruct a as [|l|d|t]; cbn [estep] in R.
  - destruct (g_sub (m_world m)) eqn:Es; injection R as <-; auto. destruct H as (H & Hn & Hc). specialize (H true (fun _ => eq_refl)). destruct H as (Hw & J1 & L & Wh).
    apply (@Top_of true); auto. pose proof (j_ph J1) as P. rewrite Es in P.
    assert (F : g_open (m_world m) = true /\ g_spawned (m_world m) = false /\ g_dropped (m_world m) = false).
    { revert P. unfold phase. destruct (g_open (m_world m)), (g_spawned (m_world m)), (g_dropped (m_world m)); auto; lia. }
    destruct F as (F1 & F2 & F3). rewrite F1, F2, F3 in P. destruct P as (P1 & P2 & P3 & P4).
    split; [auto|]. split; [|split].
    + unfold JM. cbn. constructor; try apply J1.
      * apply Forall_app. split; [apply J1|]. repeat constructor.
      * rewrite F1, F2, F3, !cnt_app. cbn [phase]. change (cnt (@isA X) [AActivate 0 (WImmediate (Some KSpawn))]) with 1. change (cnt (@isD X) [AActivate 0 (WImmediate (Some KSpawn))]) with 0.
        change (cnt (@isI X) [AActivate 0 (WImmediate (Some KSpawn))]) with 0. change (cnt (@isC X) [AActivate 0 (WImmediate (Some KSpawn))]) with 0. cbn in P3. cbn. lia.
    + intros Q. cbn in Q. lia.
    + apply sub_Wd, Wh.
  - destruct (many l (m_world m)) as [g rs] eqn:Em. injection R as <-. destruct H as (H & Hn & Hc). specialize (H true (fun _ => eq_refl)).
    assert (Wh := proj2 (proj2 (proj2 H))). destruct (many_Wd Wh Hf Em) as [W' M]. pose proof (TI_move H M W') as T.
    destruct (flush_TI Hdown T) as (T' & K' & C' & _). apply (@Top_of true); auto. destruct K' as (_ & _ & _ & _ & -> & _).
    destruct (performs_fields rs (set_world m g)) as (_ & (_ & _ & _ & _ & -> & _) & _). exact Hn.
  - unfold tick in R. destruct (tick_to run fuel (m_now m + d) m) as [m1|m1|] eqn:Et; try discriminate. injection R as <-.
    destruct (tick_Top _ _ H Et) as (T1 & T2 & _). destruct (flush_TI Hdown T1) as (T' & (_ & _ & _ & _ & K' & _) & C' & _). apply (@Top_of (g_open (m_world m))); auto. congruence.
  - destruct (tick_to run fuel t m) as [m1|m1|] eqn:Et; try discriminate. injection R as <-.
    destruct (tick_Top _ _ H Et) as (T1 & T2 & _). destruct (flush_TI Hdown T1) as (T' & (_ & _ & _ & _ & K' & _) & C' & _). apply (@Top_of (g_open (m_world m))); auto. congruence.
Qed.
Lemma boot_Top : forall depth, Top (boot depth fresh).
Proof.
  intros depth. split; [|auto]. intros was Hw. split; [auto|]. split; [|split; [intros Q; cbn in Q; lia|apply fresh_Wd]].
  constructor; cbn; auto; try (intros; contradiction); try discriminate. constructor.
Qed.
Lemma esteps_Top : forall fuel h m m', Top m -> fair_acts h -> esteps down user fuel m h = Fine m' -> Top m'.
Proof.
  intros fuel. induction h as [|a h IH]; intros m m' H Hf R; cbn in R.
  - now injection R as <-.
  - inversion Hf; subst. destruct (estep down user fuel m a) as [m1|m1|] eqn:E; try discriminate. apply (IH m1); auto. eapply estep_Top; eauto.
Qed.
Lemma Top_Wd : forall m, Top m -> Wd down [] (m_world m).
Proof. intros m (H & _ & Hc). destruct (H true (fun _ => eq_refl)) as (_ & _ & _ & Wh). now rewrite Hc in Wh. Qed.

Lemma ev_hears : forall fuel depth h m, fair_acts h -> esteps down user fuel (boot depth fresh) h = Fine m ->
  g_told (m_world m) = until (fun l => fst (down l)) [] (heard true (g_log (m_world m))).
Proof. intros fuel depth h m Hf R. apply (wd_told (Top_Wd (esteps_Top _ (boot_Top depth) Hf R))). Qed.
Lemma ev_once : forall fuel depth h m, fair_acts h -> esteps down user fuel (boot depth fresh) h = Fine m ->
  spawns (g_log (m_world m)) <= 1 /\ (g_sat (m_world m) = SGone -> g_open (m_world m) = false).
Proof.
  intros fuel depth h m Hf R. assert (Wh := Top_Wd (esteps_Top _ (boot_Top depth) Hf R)). rewrite (wd_once Wh). split; [destruct (g_sat _); lia|].
  intros Q. destruct (g_dropped (m_world m)) eqn:Z; [now apply (wd_cl Wh)|]. destruct (wd_nd Wh Z). congruence.
Qed.
Definition is_tick (a : act A X) : Prop := match a with ETick _ | ETickTo _ => True | _ => False end.
Lemma ev_tick : forall fuel m a m', Top m -> is_tick a -> estep down user fuel m a = Fine m' -> exists t m1, tick_to run fuel t m = Fine m1 /\ m' = flush down m1.
Proof.
  intros fuel m a m' H Ha R. destruct a as [|l|d|t]; try contradiction; cbn [estep] in R; unfold tick in R.
  - destruct (tick_to run fuel (m_now m + d) m) as [m1|m1|] eqn:Et; try discriminate. injection R as <-. eauto.
  - destruct (tick_to run fuel t m) as [m1|m1|] eqn:Et; try discriminate. injection R as <-. eauto.
Qed.
Lemma ev_settles : forall fuel depth h m a m', fair_acts h -> esteps down user fuel (boot depth fresh) h = Fine m -> is_tick a ->
  estep down user fuel m a = Fine m' ->
  (g_open (m_world m) = false -> g_sat (m_world m') <> SLive) /\
  (g_sub (m_world m') = true -> g_open (m_world m') = true -> g_sat (m_world m') = SLive).
Proof.
  intros fuel depth h m a m' Hf R Ha R'. assert (H := esteps_Top _ (boot_Top depth) Hf R). destruct (ev_tick _ _ H Ha R') as (t & m1 & Et & ->).
  destruct (tick_Top _ _ H Et) as (T1 & T2 & T3 & T4). destruct (flush_TI Hdown T1) as (T' & _ & C' & Wh & rs & (M1 & M2 & M3 & M4)). split.
  - intros Q. assert (O1 : g_open (m_world m1) = false) by (destruct (g_open (m_world m1)) eqn:Z; auto; destruct T1 as (T1 & _); rewrite (T1 Z) in Q; discriminate).
    destruct (g_spawned (m_world m1)) eqn:Sp.
    + rewrite (T4 O1 eq_refl) in M3. destruct (wd_dr Wh M3) as [Z|(c1 & c2 & Z & _)]; [congruence|destruct c1; discriminate].
    + destruct (wd_un Wh M2) as (_ & Z & _). congruence.
  - intros Q1 Q2. rewrite M1 in Q1. assert (O1 : g_open (m_world m1) = true) by (destruct M4 as [[M4 _]|(_ & M4 & _)]; congruence).
    rewrite (T3 Q1 O1) in M2. destruct (wd_sp Wh M2) as [[Z _]|[_ Z]]; [discriminate|].
    destruct (g_sat _) eqn:S; auto; [congruence|]. destruct (g_dropped (m_world (flush down m1))) eqn:D; [apply (wd_cl Wh) in D; congruence|]. destruct (wd_nd Wh D). congruence.
Qed.
End Top.
