(** Invariants of an operator on the executor: enough to check the operator's own steps. *)
From Verif Require Import Base SubscrModel SchedModel SchedProofs SchedExec TimeModel.
Set Implicit Arguments.

(** *** The tick of a task, without the machine. *)
Section Pure.
Variables K G : Type.
Variable run : K -> nat -> G -> K * bool * G * list (req K).
Notation mach := (mach K G).
Notation work := (work K).

Fixpoint wrep (fuel t i cap : nat) (imm : bool) (consumed cur : nat) (k : K) (res : bool)
    (execs : nat) (g : G) : option (work * bool * G * list (req K)) :=
  if ((consumed + i <=? cur) && negb res) || imm then
    match fuel with
    | 0 => None
    | S f =>
        let '(k', res', g', rs) :=
          if execs <? cap then
            let '(k1, r, g1, rs1) := run k t g in (k1, res || r, g1, rs1)
          else (k, res, g, []) in
        match wrep f t i cap false (if imm then consumed else consumed + i) cur k' res' (S execs) g' with
        | None => None
        | Some (w, r, g2, rs2) => Some (w, r, g2, rs ++ rs2)
        end
    end
  else Some (WRepeating imm consumed cur i cap k, res, g, []).

Definition wtick (fuel : nat) (w : work) (t : nat) (g : G) : option (work * bool * G * list (req K)) :=
  match w with
  | WDelayed on cur d ko =>
      let cur' := Nat.max cur t in
      if on + d <=? cur' then
        match ko with
        | Some k => let '(_, _, g', rs) := run k t g in Some (WDelayed on cur' d None, true, g', rs)
        | None => Some (WDelayed on cur' d None, true, g, [])
        end
      else Some (WDelayed on cur' d ko, false, g, [])
  | WImmediate ko =>
      match ko with
      | Some k => let '(_, _, g', rs) := run k t g in Some (WImmediate None, true, g', rs)
      | None => Some (WImmediate None, true, g, [])
      end
  | WRepeating imm consumed cur i cap k => wrep fuel t i cap imm consumed (Nat.max cur t) k false 0 g
  | WContinuous last k =>
      let '(k', r, g', rs) := run k t g in Some (WContinuous (Nat.max last t) k', r, g', rs)
  | WInvoked k => let '(k', r, g', rs) := run k t g in Some (WInvoked k', r, g', rs)
  end.

Definition act_of (now : nat) (r : req K) : action K :=
  match r with
  | QSched cid kd k => AActivate cid (hook now (new_work kd k))
  | QCancel cid => ACancel cid
  | QAddInv iid kd k => AAddInv iid (hook now (new_work kd k))
  | QInvoke iid => AInvoke iid
  | QCancelInv iid => ACancelInv iid
  end.

Definition flows (m m' : mach) (rs : list (req K)) : Prop :=
  same m m' /\ m_queue m' = m_queue m ++ map (act_of (m_snow m)) rs.

Lemma flows_refl m : flows m m [].
Proof. split; [apply same_refl|]. simpl. rewrite app_nil_r; auto. Qed.
Lemma flows_trans m1 m2 m3 r1 r2 : flows m1 m2 r1 -> flows m2 m3 r2 -> flows m1 m3 (r1 ++ r2).
Proof.
  intros [S1 Q1] [S2 Q2]. split; [eapply same_trans; eauto|].
  destruct S1 as (E & _). rewrite Q2, Q1, E, map_app, app_assoc. auto.
Qed.

Lemma performs_flows rs : forall m : mach, flows m (performs m rs) rs /\ m_world (performs m rs) = m_world m.
Proof.
  induction rs as [|r rs IH]; intros m; [split; [apply flows_refl|auto]|].
  destruct (IH (perform m r)) as [F W]. split.
  - change (r :: rs) with ([r] ++ rs). refine (flows_trans (m2 := perform m r) _ F).
    split; [apply perform_same|]. destruct r; reflexivity.
  - unfold performs in *. cbn [fold_left]. rewrite W. destruct r; reflexivity.
Qed.

Lemma call_flows o k t m m1 k1 r : call run o k t m = (m1, k1, r) ->
  exists rs, run k t (m_world m) = (k1, r, m_world m1, rs) /\ flows m m1 rs.
Proof.
  unfold call. destruct (run k t (m_world m)) as [[[k2 d] g] rs] eqn:E.
  intros X; injection X as <- <- <-. exists rs.
  destruct (performs_flows rs (set_world (log m (ERan o t)) g)) as [F W].
  rewrite W. split; [reflexivity|]. exact F.
Qed.

Lemma repeating_flows : forall fuel o t i cap imm consumed cur k res execs m m' w r,
  repeating run fuel o t i cap imm consumed cur k res execs m = Some (m', w, r) ->
  exists rs, wrep fuel t i cap imm consumed cur k res execs (m_world m) = Some (w, r, m_world m', rs) /\ flows m m' rs.
Proof.
  induction fuel as [|f IH]; intros o t i cap imm consumed cur k res execs m m' w r; cbn [repeating wrep].
  - destruct ((consumed + i <=? cur) && negb res || imm); try discriminate.
    intros X; injection X as <- <- <-. eexists; split; eauto. apply flows_refl.
  - destruct ((consumed + i <=? cur) && negb res || imm).
    2:{ intros X; injection X as <- <- <-. eexists; split; eauto. apply flows_refl. }
    assert (H : exists m1 k1 r1 rs1,
      (if execs <? cap then let '(m1, k1, r) := call run o k t m in (m1, k1, res || r) else (m, k, res)) = (m1, k1, r1) /\
      (if execs <? cap then let '(k1, r, g1, rs1) := run k t (m_world m) in (k1, res || r, g1, rs1) else (k, res, m_world m, [])) = (k1, r1, m_world m1, rs1) /\
      flows m m1 rs1).
    { destruct (execs <? cap).
      - destruct (call run o k t m) as [[m1 k1] r1] eqn:C. apply call_flows in C.
        destruct C as (rs1 & E1 & F1). rewrite E1. repeat eexists; eauto; apply F1.
      - repeat eexists. simpl. rewrite app_nil_r; auto. }
    destruct H as (m1 & k1 & r1 & rs1 & -> & -> & F1). intros H.
    assert (H' : repeating run f o t i cap false (if imm then consumed else consumed + i) cur k1 r1 (S execs) m1 = Some (m', w, r))
      by (destruct imm; auto).
    apply IH in H'. destruct H' as (rs2 & -> & F2).
    eexists; split; eauto. eapply flows_trans; eauto.
Qed.

Lemma work_tick_flows fuel o w t m m' w' r :
  work_tick run fuel o w t m = Some (m', w', r) ->
  exists rs, wtick fuel w t (m_world m) = Some (w', r, m_world m', rs) /\ flows m m' rs.
Proof.
  destruct w as [on cur d [k|]|[k|]|imm consumed cur i cap k|lt k|k]; cbn [work_tick wtick];
    rewrite ?later_max.
  - destruct (on + d <=? Nat.max cur t).
    + destruct (call run o k t m) as [[m1 k1] r1] eqn:C. apply call_flows in C.
      destruct C as (rs & -> & F). intros X; injection X as <- <- <-. eauto.
    + intros X; injection X as <- <- <-. eexists; split; eauto using flows_refl.
  - destruct (on + d <=? Nat.max cur t);
      intros X; injection X as <- <- <-; eexists; split; eauto using flows_refl.
  - destruct (call run o k t m) as [[m1 k1] r1] eqn:C. apply call_flows in C.
    destruct C as (rs & -> & F). intros X; injection X as <- <- <-. eauto.
  - intros X; injection X as <- <- <-; eexists; split; eauto using flows_refl.
  - apply repeating_flows.
  - destruct (call run o k t m) as [[m1 k1] r1] eqn:C. apply call_flows in C.
    destruct C as (rs & -> & F). intros X; injection X as <- <- <-. eauto.
  - destruct (call run o k t m) as [[m1 k1] r1] eqn:C. apply call_flows in C.
    destruct C as (rs & -> & F). intros X; injection X as <- <- <-. eauto.
Qed.
End Pure.

(** *** The operator's share of the executor's state. *)
Section View.
Variables O X : Type.
Notation K := (clo O X).
Notation work := (work K).

Definition closure (w : work) : option K :=
  match w with
  | WDelayed _ _ _ k | WImmediate k => k
  | WRepeating _ _ _ _ _ k | WContinuous _ k | WInvoked k => Some k
  end.
Definition owned (w : work) : bool := match closure w with Some (KO _) => true | _ => false end.

(** Its tasks in the executor that are not finished, in order; was each ticked in this
    tick. *)
Definition vact (tk fin : list nat) (l : list (nat * work)) : list (bool * work) :=
  map (fun x => (mem (fst x) tk, snd x)) (filter (fun x => owned (snd x) && negb (mem (fst x) fin)) l).

(** What the executor did not take over yet. *)
Inductive qop : Type := QS (w : work) | QC.
Definition vq (q : list (action K)) : list qop :=
  flat_map (fun a => match a with
    | AActivate _ w => if owned w then [QS w] else []
    | ACancel 0 => [QC]
    | _ => [] end) q.
Definition vr (now : nat) (rs : list (req K)) : list qop :=
  flat_map (fun r => match r with
    | QSched _ kd (KO o) => [QS (hook now (new_work kd (KO o)))]
    | QCancel 0 => [QC]
    | _ => [] end) rs.

Definition rq_ok (r : req K) : Prop :=
  match r with
  | QSched cid _ (KO _) => cid = 0
  | QAddInv _ _ (KO _) => False
  | _ => True
  end.

Lemma owned_new now kd (k : K) : owned (hook now (new_work kd k)) = match k with KO _ => true | _ => false end.
Proof. destruct kd; reflexivity. Qed.

Lemma vq_app a b : vq (a ++ b) = vq a ++ vq b.
Proof. apply flat_map_app. Qed.
Lemma vr_app n a b : vr n (a ++ b) = vr n a ++ vr n b.
Proof. apply flat_map_app. Qed.
Lemma vq_acts now rs : Forall rq_ok rs -> vq (map (act_of now) rs) = vr now rs.
Proof.
  induction 1 as [|r rs H F IH]; auto. simpl map. change (vq (?x :: ?l)) with (vq ([x] ++ l)).
  rewrite vq_app, IH. unfold vr at 2. cbn [flat_map]. f_equal.
  destruct r as [cid kd [o|x]|[|cid]|iid kd k|iid|iid]; simpl; rewrite ?owned_new; auto.
Qed.

Lemma vact_app tk fin a b : vact tk fin (a ++ b) = vact tk fin a ++ vact tk fin b.
Proof. unfold vact. rewrite filter_app, map_app; auto. Qed.

(** *** The machine. *)
Variable G : Type.
Notation mach := (mach K G).

Record J (m : mach) : Prop := mkJ {
  j_nodup : NoDup (ids (m_active m));
  j_next : forall id, In id (ids (m_active m)) -> id < m_next m;
  j_cnext : forall id cid, In id (m_cmap m cid) -> id < m_next m;
  j_mine : forall id w, In (id, w) (m_active m) -> owned w = true -> forall cid, In id (m_cmap m cid) <-> cid = 0;
  j_queue : Forall (fun a => match a with
      | AActivate cid w => owned w = true -> cid = 0
      | AAddInv _ w => owned w = false
      | _ => True end) (m_queue m);
  j_inv : forall iid w, m_inv m iid = Some w -> owned w = false
}.

Lemma J_flows m m' rs : flows m m' rs -> Forall rq_ok rs -> J m -> J m'.
Proof.
  intros [(S1 & S2 & S3 & S4 & S5 & S6 & S7 & S8 & S9) Q] F [A B C D E H].
  constructor; rewrite ?S3, ?S4, ?S5, ?S6; auto.
  rewrite Q. apply Forall_app. split; auto.
  clear -F. induction F as [|r rs H F IH]; simpl; constructor; auto.
  destruct r; simpl; auto; rewrite owned_new; destruct k; simpl in H; auto; try discriminate; tauto.
Qed.

Lemma in_active_fst (id : nat) (w : work) l : In (id, w) l -> In id (ids l).
Proof. intros H. apply (in_map fst) in H. auto. Qed.

Lemma nodup_fst (l : list (nat * work)) id w w' : NoDup (ids l) -> In (id, w) l -> In (id, w') l -> w = w'.
Proof.
  induction l as [|[j x] l IH]; simpl; [tauto|]. intros N. inversion N as [|? ? N1 N2]; subst.
  intros [E|H] [E'|H'].
  - congruence.
  - injection E as -> ->. apply in_active_fst in H'. tauto.
  - injection E' as -> ->. apply in_active_fst in H. tauto.
  - auto.
Qed.

Lemma remove_sub ids0 (l : list (nat * work)) x : In x (remove_works ids0 l) -> In x l.
Proof. unfold remove_works. rewrite filter_In. tauto. Qed.

Lemma nodup_filter {Y} (f : Y -> bool) l : NoDup l -> NoDup (filter f l).
Proof.
  induction 1 as [|x l H N IH]; simpl; [constructor|]. destruct (f x); auto. constructor; auto.
  rewrite filter_In. tauto.
Qed.

Lemma J_remove m fin : J m -> J (set_active m (remove_works fin (m_active m))).
Proof.
  intros [A B C D E H]. constructor; cbn [m_active m_next m_cmap m_queue m_inv set_active]; auto.
  - rewrite ids_remove. apply nodup_filter; auto.
  - intros id I. apply in_ids_remove in I. apply B; tauto.
  - intros id w I. apply remove_sub in I. apply D; auto.
Qed.

Lemma J_drain_one m a q : m_queue m = a :: q -> J m -> J (drain_one (set_sched m (m_snow m) q) a).
Proof.
  intros Q [A B C D E H]. rewrite Q in E. inversion E as [|? ? Ea Eq]; subst.
  destruct a as [cid w|cid|iid w|iid|iid]; cbn [drain_one].
  - constructor; cbn; auto.
    + unfold ids. rewrite map_app. simpl. apply NoDup_app_remove_r with (l' := []) || idtac.
      replace (map fst (m_active m) ++ [m_next m]) with (ids (m_active m) ++ [m_next m]) by auto.
      apply NoDup_rev in A. rewrite <- (rev_involutive (ids (m_active m) ++ [m_next m])).
      apply NoDup_rev. rewrite rev_app_distr. simpl. constructor; auto.
      rewrite <- in_rev. intros I. apply B in I. lia.
    + intros id. unfold ids. rewrite map_app, in_app_iff. simpl. intros [I|[<-|[]]]; auto.
      apply B in I. lia.
    + intros id c. unfold set. destruct (cid =? c).
      * rewrite in_app_iff. simpl. intros [I|[<-|[]]]; auto. apply C in I; lia.
      * intros I. apply C in I; lia.
    + intros id w0. rewrite in_app_iff. simpl. intros [I|[I|[]]] Ow c.
      * specialize (D _ _ I Ow c). apply in_active_fst in I. apply B in I.
        unfold set. destruct (Nat.eqb_spec cid c) as [<-|]; auto.
        rewrite in_app_iff. simpl. rewrite D. intuition lia.
      * injection I as <- <-. specialize (Ea Ow). subst cid. unfold set.
        destruct (Nat.eqb_spec 0 c) as [<-|N].
        -- rewrite in_app_iff. simpl. tauto.
        -- split; [|congruence]. intros I. apply C in I. lia.
  - constructor; cbn; auto.
    + change (NoDup (ids (remove_works (m_cmap m cid) (m_active m)))).
      rewrite ids_remove. apply nodup_filter; auto.
    + intros id I. apply in_ids_remove in I. apply B; tauto.
    + intros id c. unfold set. destruct (cid =? c); simpl; [tauto|]. apply C.
    + intros id w I Ow c. assert (I' := remove_sub _ _ _ I).
      unfold set. destruct (Nat.eqb_spec cid c) as [<-|]; [|apply (D _ _ I' Ow)].
      split; [simpl; tauto|]. intros ->. unfold remove_works in I. apply filter_In in I.
      destruct I as [_ I]. change (negb (mem id (m_cmap m 0)) = true) in I.
      rewrite (proj2 (mem_in id (m_cmap m 0))) in I; [discriminate|]. apply (D _ _ I' Ow). auto.
  - constructor; cbn; auto. intros i w0. unfold set. destruct (iid =? i); [|apply H].
    intros Y; injection Y as <-. auto.
  - constructor; cbn; auto.
  - constructor; cbn; auto. intros i w0. unfold set. destruct (iid =? i); [discriminate|apply H].
Qed.

Lemma vact_notin tk fin l id w : ~ In id (ids l) -> vact tk fin (put_work id w l) = vact tk fin l.
Proof.
  intros N. f_equal. unfold put_work. rewrite <- (map_id l) at 2. apply map_ext_in.
  intros [j x] I. simpl. destruct (Nat.eqb_spec j id); auto. subst. apply in_active_fst in I. tauto.
Qed.

Lemma vact_tk tk fin l id : ~ In id (ids l) -> vact (tk ++ [id]) fin l = vact tk fin l.
Proof.
  intros N. unfold vact. apply map_ext_in. intros [j x] I. apply filter_In in I. destruct I as [I _].
  simpl. f_equal. unfold mem. rewrite existsb_app. simpl.
  destruct (Nat.eqb_spec j id); [subst; apply in_active_fst in I; tauto|]. rewrite !orb_false_r; auto.
Qed.
Lemma vact_fin tk fin l id : ~ In id (ids l) -> vact tk (fin ++ [id]) l = vact tk fin l.
Proof.
  intros N. unfold vact. f_equal. apply filter_ext_in. intros [j x] I.
  simpl. f_equal. f_equal. unfold mem. rewrite existsb_app. simpl.
  destruct (Nat.eqb_spec j id); [subst; apply in_active_fst in I; tauto|]. rewrite !orb_false_r; auto.
Qed.
Lemma filter_filter {Y} (f g : Y -> bool) l : filter f (filter g l) = filter (fun x => g x && f x) l.
Proof.
  induction l as [|x l IH]; auto. simpl. destruct (g x); simpl; auto. destruct (f x); rewrite IH; auto.
Qed.
Lemma vact_removed tk fin l : vact tk [] (remove_works fin l) = vact tk fin l.
Proof.
  unfold vact, remove_works. f_equal. rewrite filter_filter. apply filter_ext. intros [j x].
  cbn [fst snd]. change (mem j []) with false. destruct (owned x), (mem j fin); auto.
Qed.
End View.

(** *** Lifting. Between ticks; in a tick whose first drain is not over; in the rest of it. *)
Inductive phase : Type := Between | Begun (t : nat) | Running (t : nat).
Definition given (ph : phase) : option nat :=
  match ph with Between => None | Begun t | Running t => Some t end.

Section Lift.
Variables A B E S O X : Type.
Variable T : timed A B E S O X.
Variable down : list (ncall B E) -> bool * list (req X).
Variable user : X -> nat -> list (tev A B E) -> X * bool * list (cmd A E X).
Notation W := (world A B E S O X).
Notation K := (clo O X).
Notation R := (run T down user).
Notation mach := (mach K W).

(** [P ph now l q w]: it is now [now], the operator's tasks are [l], and [q] is still to be taken over. *)
Variable P : phase -> nat -> list (bool * work K) -> list (qop O X) -> W -> Prop.

Definition is_up (c : cmd A E X) : Prop := match c with CReq _ => False | _ => True end.

Hypothesis Hclear : forall ph now l q w, P ph now l q w <-> P ph now l q (clear w).
(** What the other tasks do; between ticks there is no restriction. *)
Variable able : cmd A E X -> Prop.
Hypothesis Huser : forall x t tr, Forall able (snd (user x t tr)).
Hypothesis Hcmd : forall ph now l q w c, is_up c -> ph = Between \/ able c -> Forall (@rq_ok O X) (w_rs w) ->
  P ph now l (q ++ vr now (w_rs w)) w ->
  Forall (@rq_ok O X) (w_rs (do_cmd T down w c)) /\
  P ph now l (q ++ vr now (w_rs (do_cmd T down w c))) (do_cmd T down w c).
Hypothesis Hrun : forall fuel t now l1 wk l2 q w wk' r w' rs,
  P (Running t) now (l1 ++ (false, wk) :: l2) q w -> Forall (fun x => fst x = true) l1 -> owned wk = true ->
  wtick R fuel wk t w = Some (wk', r, w', rs) ->
  Forall (@rq_ok O X) rs /\
  P (Running t) now (l1 ++ (if r then [] else [(true, wk')]) ++ l2) (q ++ vr now rs) w'.
Hypothesis Hbegin : forall now l q w u, P Between now l q w -> Forall (fun x => fst x = true) l ->
  P (Begun u) (Nat.max now u) (map (fun x => (false, snd x)) l) q (note (XTick u) w).
Hypothesis Hgo : forall t now l w, P (Begun t) now l [] w -> P (Running t) now l [] w.
Hypothesis Hend : forall t now l w, P (Running t) now l [] w -> Forall (fun x => fst x = true) l ->
  P Between now l [] (note XEnd w).
Hypothesis HS : forall ph now l w q g, P ph now l (QS w :: q) g -> owned w = true -> P ph now (l ++ [(false, w)]) q g.
Hypothesis HC : forall ph now l q g, P ph now l (QC _ _ :: q) g -> P ph now [] q g.
Hypothesis Hinit : P Between 0 [] [] (mkW (t_new T) false false false false [] []).

Lemma theirs_ok (r : req X) : @rq_ok O X (theirs r) /\ forall now, vr now [theirs (O := O) r] = [].
Proof. destruct r; simpl; auto. Qed.

Lemma cmds_ok ph now l q : forall cs w, ph = Between \/ Forall able cs -> Forall (@rq_ok O X) (w_rs w) ->
  P ph now l (q ++ vr now (w_rs w)) w ->
  let w' := fold_left (do_cmd T down) cs w in
  Forall (@rq_ok O X) (w_rs w') /\ P ph now l (q ++ vr now (w_rs w')) w'.
Proof.
  induction cs as [|c cs IH]; intros w Ha F H; [simpl; auto|].
  assert (Ha1 : ph = Between \/ Forall able cs) by (destruct Ha as [Ha|Ha]; [auto|right; inversion Ha; auto]).
  cbn [fold_left]. assert (D : is_up c \/ exists r, c = CReq r) by (destruct c; simpl; eauto).
  destruct D as [D|[r ->]].
  - assert (Ha2 : ph = Between \/ able c) by (destruct Ha as [Ha|Ha]; [auto|right; inversion Ha; auto]).
    destruct (@Hcmd ph now l q w c D Ha2 F H) as [F' H']. apply IH; auto.
  - cbn [do_cmd]. destruct (theirs_ok r) as [K1 K2]. apply IH; cbn [w_rs ask]; auto.
    + apply Forall_app; auto.
    + rewrite vr_app, K2, app_nil_r. apply Hclear. apply Hclear in H. exact H.
Qed.

Lemma foreign_call x t now l q w k' r w' rs : R (KX x) t w = (k', r, w', rs) ->
  P (Running t) now l q w -> (exists y, k' = KX y) /\ Forall (@rq_ok O X) rs /\ P (Running t) now l (q ++ vr now rs) w'.
Proof.
  cbn [run]. assert (Hu := Huser x t (w_tr w)). destruct (user x t (w_tr w)) as [[x' d] cs]. cbn [snd] in Hu. intros Y; injection Y as <- <- <- <-.
  intros H. split; [eauto|]. apply cmds_ok; cbn [w_rs clear]; auto.
  rewrite app_nil_r. apply Hclear in H. exact H.
Qed.

Lemma foreign_rep t now l i cap : forall fuel imm consumed cur x res ex w q wk' r w' rs,
  wrep R fuel t i cap imm consumed cur (KX x) res ex w = Some (wk', r, w', rs) ->
  P (Running t) now l q w -> owned wk' = false /\ Forall (@rq_ok O X) rs /\ P (Running t) now l (q ++ vr now rs) w'.
Proof.
  induction fuel as [|f IH]; intros imm consumed cur x res ex w q wk' r w' rs; cbn [wrep];
    destruct ((consumed + i <=? cur) && negb res || imm); try discriminate.
  1,3: intros Y; injection Y as <- <- <- <-; simpl; rewrite app_nil_r; auto.
  assert (D : exists y r1 g1 rs1, (if ex <? cap then let '(k1, r0, g1, rs1) := R (KX x) t w in (k1, res || r0, g1, rs1)
           else (KX x, res, w, [])) = (KX y, r1, g1, rs1) /\
           (P (Running t) now l q w -> Forall (@rq_ok O X) rs1 /\ P (Running t) now l (q ++ vr now rs1) g1)).
  { destruct (ex <? cap).
    - destruct (R (KX x) t w) as [[[k1 r0] g1] rs1] eqn:C.
      assert (D : exists y, k1 = KX y).
      { cbn [run] in C. assert (Hu := Huser x t (w_tr w)). destruct (user x t (w_tr w)) as [[x' d] cs]. cbn [snd] in Hu. injection C as <- <- <- <-. eauto. }
      destruct D as [y ->]. exists y, (res || r0), g1, rs1. split; auto.
      intros H. apply (@foreign_call _ t now l q _ _ _ _ _ C H).
    - exists x, res, w, []. simpl. rewrite app_nil_r. auto. }
  destruct D as (y & r1 & g1 & rs1 & -> & D).
  destruct (wrep R f t i cap false (if imm then consumed else consumed + i) cur (KX y) r1 (Datatypes.S ex) g1)
    as [[[[w2 r2] g2] rs2]|] eqn:Q; [|discriminate].
  intros Y; injection Y as <- <- <- <-. intros H. destruct (D H) as [F1 H1].
  destruct (IH _ _ _ _ _ _ _ _ _ _ _ _ Q H1) as (N & F2 & H2). split; auto. split.
  - apply Forall_app; auto.
  - rewrite vr_app, app_assoc; auto.
Qed.

Lemma foreign_tick fuel wk t now l q w wk' r w' rs : owned wk = false ->
  wtick R fuel wk t w = Some (wk', r, w', rs) ->
  P (Running t) now l q w -> owned wk' = false /\ Forall (@rq_ok O X) rs /\ P (Running t) now l (q ++ vr now rs) w'.
Proof.
  destruct wk as [on cur d [[o|x]|]|[[o|x]|]|imm consumed cur i cap [o|x]|lt [o|x]|[o|x]];
    cbn [owned closure wtick]; try discriminate; intros _.
  - destruct (on + d <=? Nat.max cur t).
    + destruct (R (KX x) t w) as [[[k1 r0] g1] rs1] eqn:C. intros Y; injection Y as <- <- <- <-. intros H.
      destruct (@foreign_call _ t now l q _ _ _ _ _ C H) as (_ & F & H'). auto.
    + intros Y; injection Y as <- <- <- <-. simpl; rewrite app_nil_r; auto.
  - destruct (on + d <=? Nat.max cur t); intros Y; injection Y as <- <- <- <-; simpl; rewrite app_nil_r; auto.
  - destruct (R (KX x) t w) as [[[k1 r0] g1] rs1] eqn:C. intros Y; injection Y as <- <- <- <-. intros H.
    destruct (@foreign_call _ t now l q _ _ _ _ _ C H) as (_ & F & H'). auto.
  - intros Y; injection Y as <- <- <- <-; simpl; rewrite app_nil_r; auto.
  - intros Q H. eapply foreign_rep; eauto.
  - destruct (R (KX x) t w) as [[[k1 r0] g1] rs1] eqn:C. intros Y; injection Y as <- <- <- <-. intros H.
    destruct (@foreign_call _ t now l q _ _ _ _ _ C H) as ([y ->] & F & H'). auto.
  - destruct (R (KX x) t w) as [[[k1 r0] g1] rs1] eqn:C. intros Y; injection Y as <- <- <- <-. intros H.
    destruct (@foreign_call _ t now l q _ _ _ _ _ C H) as ([y ->] & F & H'). auto.
Qed.

Lemma owned_call o t w k' r w' rs : R (KO o) t w = (k', r, w', rs) -> exists o', k' = KO o'.
Proof.
  cbn [run]. destruct (t_run T (tell (t_torn T) down) o t (clear w)) as [[o' d] g].
  intros Y; injection Y as <- <- <- <-. eauto.
Qed.
Lemma owned_rep t i cap : forall fuel imm consumed cur o res ex w wk' r w' rs,
  wrep R fuel t i cap imm consumed cur (KO o) res ex w = Some (wk', r, w', rs) -> owned wk' = true.
Proof.
  induction fuel as [|f IH]; intros imm consumed cur o res ex w wk' r w' rs; cbn [wrep];
    destruct ((consumed + i <=? cur) && negb res || imm); try discriminate.
  1,3: intros Y; injection Y as <- <- <- <-; auto.
  destruct (ex <? cap).
  - destruct (R (KO o) t w) as [[[k1 r0] g1] rs1] eqn:C. destruct (owned_call _ _ _ C) as [o' ->].
    destruct (wrep R f t i cap false (if imm then consumed else consumed + i) cur (KO o') (res || r0) (Datatypes.S ex) g1)
      as [[[[w2 r2] g2] rs2]|] eqn:Q; [|discriminate].
    intros Y; injection Y as <- <- <- <-. eauto.
  - destruct (wrep R f t i cap false (if imm then consumed else consumed + i) cur (KO o) res (Datatypes.S ex) w)
      as [[[[w2 r2] g2] rs2]|] eqn:Q; [|discriminate].
    intros Y; injection Y as <- <- <- <-. eauto.
Qed.
Lemma owned_tick fuel wk t w wk' w' rs : owned wk = true ->
  wtick R fuel wk t w = Some (wk', false, w', rs) -> owned wk' = true.
Proof.
  destruct wk as [on cur d [[o|x]|]|[[o|x]|]|imm consumed cur i cap [o|x]|lt [o|x]|[o|x]];
    cbn [owned closure wtick]; try discriminate; intros _.
  - destruct (on + d <=? Nat.max cur t).
    + destruct (R (KO o) t w) as [[[k1 r0] g1] rs1]. discriminate.
    + intros Y; injection Y as <- <- <-. auto.
  - destruct (R (KO o) t w) as [[[k1 r0] g1] rs1]. discriminate.
  - apply owned_rep.
  - destruct (R (KO o) t w) as [[[k1 r0] g1] rs1] eqn:C. intros Y; injection Y as <- _ _ _.
    destruct (owned_call _ _ _ C) as [o' ->]. auto.
  - destruct (R (KO o) t w) as [[[k1 r0] g1] rs1] eqn:C. intros Y; injection Y as <- _ _ _.
    destruct (owned_call _ _ _ C) as [o' ->]. auto.
Qed.

Definition Q (ph : phase) (tk fin : list nat) (m : mach) : Prop :=
  J m /\ P ph (m_snow m) (vact tk fin (m_active m)) (vq (m_queue m)) (m_world m).

Lemma find_split (l1 : list (nat * work K)) id w l2 : NoDup (ids (l1 ++ (id, w) :: l2)) ->
  find_work id (l1 ++ (id, w) :: l2) = Some w /\
  (forall w', put_work id w' (l1 ++ (id, w) :: l2) = l1 ++ (id, w') :: l2) /\
  ~ In id (ids l1) /\ ~ In id (ids l2).
Proof.
  intros N. assert (N' := N). unfold ids in N'. rewrite map_app in N'. simpl in N'.
  apply NoDup_remove_2 in N'. rewrite in_app_iff in N'. split; [|split; [|tauto]].
  - destruct (find_in id (l1 ++ (id, w) :: l2)) as [w0 Hw].
    { unfold ids. rewrite map_app, in_app_iff. simpl. auto. }
    rewrite Hw. f_equal. apply in_find in Hw.
    eapply nodup_fst; eauto. rewrite in_app_iff. simpl. auto.
  - intros w'. rewrite put_app. cbn [put_work map fst]. rewrite Nat.eqb_refl.
    assert (Z : forall l : list (nat * work K), ~ In id (ids l) -> put_work id w' l = l).
    { intros l H. unfold put_work. rewrite <- (map_id l) at 2. apply map_ext_in.
      intros [j x] I. simpl. destruct (Nat.eqb_spec j id); auto. subst. apply in_active_fst in I. tauto. }
    fold (put_work id w' l2). rewrite !Z; auto; tauto.
Qed.

Lemma J_put (m : mach) l1 id w l2 w' : m_active m = l1 ++ (id, w) :: l2 ->
  (owned w' = true -> owned w = true) -> J m -> J (set_active m (put_work id w' (m_active m))).
Proof.
  intros Ea Ow [J1 J2 J3 J4 J5 J6]. constructor; cbn [m_active m_next m_cmap m_queue m_inv set_active]; auto.
  - rewrite ids_put; auto.
  - rewrite ids_put; auto.
  - intros j x I Ox. apply in_put in I. rewrite Ea in J1. assert (N := J1). apply find_split in N.
    destruct I as [[-> ->]|[N' I]]; [|eauto].
    apply (J4 id w); auto. rewrite Ea, in_app_iff. simpl. auto.
Qed.

Lemma vact_true tk fin l : (forall id, In id (ids l) -> In id tk) -> Forall (fun x => fst x = true) (@vact O X tk fin l).
Proof.
  intros H. unfold vact. apply Forall_forall. intros x I. apply in_map_iff in I.
  destruct I as ([j y] & <- & I). apply filter_In in I. destruct I as [I _].
  simpl. apply mem_in. apply H. apply in_active_fst in I. auto.
Qed.

Lemma vact_one tk fin (id : nat) (w : work K) : 
  vact tk fin [(id, w)] = if owned w && negb (mem id fin) then [(mem id tk, w)] else [].
Proof. unfold vact. cbn [filter fst snd]. destruct (owned w && negb (mem id fin)); auto. Qed.

Lemma tick_ids_lift fuel t : forall post pre tk fin (m m' : mach) fin',
  m_active m = pre ++ post -> (forall id, In id (ids pre) -> In id tk) ->
  (forall id, In id (ids post) -> ~ In id tk) -> (forall id, In id fin -> In id tk) ->
  tick_ids R fuel t (ids post) fin m = Some (m', fin') ->
  Q (Running t) tk fin m ->
  Q (Running t) (tk ++ ids post) fin' m' /\ ids (m_active m') = ids (m_active m) /\ 
  m_ticked m' = m_ticked m /\ m_invoked m' = m_invoked m /\ m_depth m' = m_depth m /\ m_snow m' = m_snow m.
Proof.
  induction post as [|[id w] post IH]; intros pre tk fin m m' fin' Ea H1 H2 H3.
  - simpl. intros Y; injection Y as <- <-. rewrite app_nil_r. intros HQ. split; [exact HQ|]. repeat split.
  - cbn [ids map fst tick_ids]. fold (ids post). intros HT [HJ HP].
    assert (N := j_nodup HJ). rewrite Ea in N. destruct (find_split _ _ _ _ N) as (Fi & Pu & N1 & N2).
    rewrite Ea, Fi in HT.
    destruct (work_tick R fuel (OWork id) w t (log m (EWork id))) as [[[m1 w1] r]|] eqn:HW; [|discriminate].
    apply work_tick_flows in HW. destruct HW as (rs & HW & F). cbn [m_world log] in HW.
    assert (NT : ~ In id tk) by (apply H2; simpl; auto).
    assert (NF : ~ In id fin) by auto.
    assert (V : vact tk fin (m_active m) = vact tk fin pre ++ (if owned w then [(false, w)] else []) ++ vact tk fin post).
    { rewrite Ea. change ((id, w) :: post) with ([(id, w)] ++ post). rewrite !vact_app. f_equal. f_equal.
      rewrite vact_one. rewrite (proj2 (mem_notin id tk)) by auto.
      rewrite (proj2 (mem_notin id fin)) by auto. rewrite andb_true_r. auto. }
    assert (Sn : m_snow m1 = m_snow m) by (destruct F as [[Z _] _]; exact Z).
    assert (Ac : m_active m1 = m_active m) by (destruct F as [(_ & _ & _ & Z & _) _]; exact Z).
    assert (Qu : m_queue m1 = m_queue m ++ map (act_of (m_snow m)) rs) by (destruct F as [_ Z]; exact Z).
    assert (Sm : m_ticked m1 = m_ticked m /\ m_invoked m1 = m_invoked m /\ m_depth m1 = m_depth m).
    { destruct F as [(_ & _ & _ & _ & _ & _ & Z1 & Z2 & Z3) _]. auto. }
    set (fin1 := if r then fin ++ [id] else fin).
    assert (G1 : Forall (@rq_ok O X) rs /\ (owned w1 = true -> owned w = true) /\
      P (Running t) (m_snow m) (vact (tk ++ [id]) fin1 (pre ++ (id, w1) :: post)) (vq (m_queue m) ++ vr (m_snow m) rs) (m_world m1)).
    { assert (V1 : vact (tk ++ [id]) fin1 (pre ++ (id, w1) :: post) =
        vact tk fin pre ++ (if owned w1 && negb r then [(true, w1)] else []) ++ vact tk fin post).
      { change ((id, w1) :: post) with ([(id, w1)] ++ post). rewrite !vact_app, vact_one, !vact_tk by auto.
        replace (mem id (tk ++ [id])) with true by (symmetry; apply mem_in; rewrite in_app_iff; simpl; auto).
        replace (mem id fin1) with r.
        2:{ unfold fin1. destruct r; symmetry; [apply mem_in; rewrite in_app_iff; simpl; auto|apply mem_notin; auto]. }
        unfold fin1. destruct r; rewrite ?vact_fin; auto. }
      rewrite V1. rewrite V in HP. destruct (owned w) eqn:Ow.
      - assert (Z := @Hrun fuel t (m_snow m) _ _ _ _ _ _ _ _ _ HP (vact_true _ _ _ H1) Ow HW). destruct Z as [Z1 Z2].
        split; auto. split; auto. destruct r.
        + rewrite andb_false_r. exact Z2.
        + rewrite (@owned_tick _ _ _ _ _ _ _ Ow HW). exact Z2.
      - assert (Z := @foreign_tick fuel w t (m_snow m) _ _ _ _ _ _ _ Ow HW HP). destruct Z as (Z0 & Z1 & Z2).
        split; auto. split; [congruence|]. rewrite Z0. exact Z2. }
    destruct G1 as (G1 & G2 & G3).
    assert (HJ1 : J m1).
    { refine (J_flows (m := log m (EWork id)) F G1 _). destruct HJ; constructor; auto. }
    assert (Ea1 : m_active m1 = pre ++ (id, w) :: post) by congruence.
    assert (HJ2 := J_put _ _ _ _ _ Ea1 G2 HJ1).
    rewrite Ea1, (Pu w1) in HJ2. rewrite Ea1 in HT. rewrite (Pu w1) in HT.
    assert (Z := IH (pre ++ [(id, w1)]) (tk ++ [id]) fin1 (set_active m1 (pre ++ (id, w1) :: post)) m' fin').
    cbn [m_active set_active m_ticked m_invoked m_depth m_snow] in Z.
    destruct Z as (Z1 & Z2 & Z3); auto.
    + rewrite <- app_assoc. auto.
    + intros j. unfold ids. rewrite map_app, !in_app_iff. simpl. intros [I|[<-|[]]]; auto.
    + intros j I. rewrite in_app_iff. simpl. intros [I'|[<-|[]]]; auto. apply (H2 j); simpl; auto.
    + intros j. unfold fin1. destruct r; rewrite !in_app_iff; simpl; [|auto]. intros [I|[<-|[]]]; auto.
    + split; auto. cbn [m_active set_active m_queue m_snow m_world]. 
      rewrite Sn, Qu, vq_app, vq_acts; auto.
    + split. { rewrite <- app_assoc in Z1. exact Z1. }
      destruct Z3 as (Y1 & Y2 & Y3 & Y4). destruct Sm as (S1 & S2 & S3).
      repeat split; try congruence. rewrite Z2, Ea. unfold ids. rewrite !map_app. auto.
Qed.

Definition sorted (tk : list nat) (l : list (nat * work K)) : Prop :=
  exists pre post, l = pre ++ post /\ (forall id, In id (ids pre) -> In id tk) /\
    (forall id, In id (ids post) -> ~ In id tk).

Lemma sorted_remove tk l js : sorted tk l -> sorted tk (remove_works js l).
Proof.
  intros (pre & post & -> & H1 & H2). exists (remove_works js pre), (remove_works js post).
  rewrite remove_app. repeat split; intros id I; apply in_ids_remove in I; [apply H1|apply H2]; tauto.
Qed.
Lemma sorted_all tk l : (forall id, In id (ids l) -> In id tk) -> sorted tk l.
Proof. intros H. exists l, []. rewrite app_nil_r. repeat split; auto. Qed.

Lemma drain_lift ph tk : forall q (m : mach), J (set_sched m (m_snow m) q) ->
  P ph (m_snow m) (vact tk [] (m_active m)) (vq q) (m_world m) ->
  (forall id, In id tk -> id < m_next m) -> sorted tk (m_active m) ->
  let m' := fold_left (@drain_one K W) q m in
  J (set_sched m' (m_snow m) []) /\ P ph (m_snow m) (vact tk [] (m_active m')) [] (m_world m') /\
  (forall id, In id tk -> id < m_next m') /\ sorted tk (m_active m') /\
  m_snow m' = m_snow m /\ m_queue m' = m_queue m /\ m_ticked m' = m_ticked m /\ m_depth m' = m_depth m /\
  (q = [] -> m' = m).
Proof.
  induction q as [|a q IH]; intros m HJ HP HT HO.
  { simpl. repeat (split; [auto; fail|]). auto. }
  cbn [fold_left].
  assert (HJ' : J (set_sched (drain_one m a) (m_snow (drain_one m a)) q)).
  { assert (Z := @J_drain_one O X W (set_sched m (m_snow m) (a :: q)) a q eq_refl HJ).
    replace (set_sched (drain_one m a) (m_snow (drain_one m a)) q) with
      (drain_one (set_sched (set_sched m (m_snow m) (a :: q)) (m_snow (set_sched m (m_snow m) (a :: q))) q) a); auto.
    destruct a; reflexivity. }
  assert (Sn : m_snow (drain_one m a) = m_snow m) by (destruct a; reflexivity).
  assert (Ww : m_world (drain_one m a) = m_world m) by (destruct a; reflexivity).
  assert (Qq : m_queue (drain_one m a) = m_queue m) by (destruct a; reflexivity).
  assert (Tt : m_ticked (drain_one m a) = m_ticked m) by (destruct a; reflexivity).
  assert (Dd : m_depth (drain_one m a) = m_depth m) by (destruct a; reflexivity).
  assert (Nn : forall id, In id tk -> id < m_next (drain_one m a)).
  { intros id I. apply HT in I. destruct a; cbn; auto. }
  assert (Oo : sorted tk (m_active (drain_one m a))).
  { destruct a; cbn [drain_one m_active set_inv set_invoked]; auto.
    - destruct HO as (pre & post & E0 & H1 & H2). rewrite E0.
      exists pre, (post ++ [(m_next m, w)]). rewrite app_assoc. repeat split; auto.
      intros id. unfold ids. rewrite map_app, in_app_iff. simpl. intros [I|[<-|[]]]; [apply H2; auto|].
      intros I. apply HT in I. lia.
    - apply sorted_remove; auto. }
  assert (Pp : P ph (m_snow m) (vact tk [] (m_active (drain_one m a))) (vq q) (m_world m)).
  { destruct a as [cid w|[|cid]|iid w|iid|iid]; cbn [drain_one m_active set_inv set_invoked];
      unfold vq in HP; cbn [flat_map] in HP; fold (vq q) in HP; auto.
    - rewrite vact_app, vact_one. change (mem (m_next m) []) with false. rewrite andb_true_r.
      destruct (owned w) eqn:Ow; [|rewrite app_nil_r; auto].
      replace (mem (m_next m) tk) with false; [apply HS; auto|].
      symmetry. apply mem_notin. intros I. apply HT in I. lia.
    - replace (vact tk [] (remove_works (m_cmap m 0) (m_active m))) with (@nil (bool * work K)).
      { apply HC with (1 := HP). }
      symmetry. rewrite vact_removed. unfold vact.
      replace (filter _ (m_active m)) with (@nil (nat * work K)); auto.
      symmetry. assert (D := j_mine HJ). cbn [m_active m_cmap set_sched] in D.
      revert D. generalize (m_active m) as l. induction l as [|[j x] l IHl]; intros D; auto.
      cbn [filter fst snd]. assert (Z : filter (fun x : nat * work K => owned (snd x) && negb (mem (fst x) (m_cmap m 0))) l = []).
      { apply IHl. intros j' w' I'. apply (D j' w'); simpl; auto. }
      rewrite Z. destruct (owned x) eqn:Ox; cbn [andb]; auto.
      rewrite (proj2 (mem_in j (m_cmap m 0))); auto. apply (D j x); simpl; auto.
    - replace (vact tk [] (remove_works (m_cmap m (Datatypes.S cid)) (m_active m))) with (vact tk [] (m_active m)); auto.
      rewrite vact_removed. unfold vact. f_equal. apply filter_ext_in. intros [j x] I.
      cbn [fst snd]. change (mem j []) with false. destruct (owned x) eqn:Ox; auto. cbn [andb]. f_equal.
      symmetry. apply mem_notin. intros I'.
      assert (D := j_mine HJ j x I Ox (Datatypes.S cid)). cbn [m_cmap set_sched] in D. apply D in I'. discriminate. }
  rewrite <- Sn, <- Ww in Pp.
  destruct (IH (drain_one m a) HJ' Pp Nn Oo) as (R1 & R2 & R3 & R4 & R5 & R6 & R7 & R8 & _).
  rewrite Sn in *. split; auto. split; auto. repeat (split; [auto; congruence|]).
  discriminate.
Qed.

Record Rb (ph : phase) (m : mach) : Prop := mkRb {
  b_q : Q ph (m_ticked m) [] m;
  b_sorted : sorted (m_ticked m) (m_active m);
  b_tk : forall id, In id (m_ticked m) -> id < m_next m
}.
Definition all_ticked (m : mach) : Prop := forall id, In id (ids (m_active m)) -> In id (m_ticked m).

Lemma due_post (m : mach) pre post : m_active m = pre ++ post ->
  (forall id, In id (ids pre) -> In id (m_ticked m)) -> (forall id, In id (ids post) -> ~ In id (m_ticked m)) ->
  due m = ids post.
Proof.
  intros E0 H1 H2. unfold due. rewrite E0, map_app, filter_app. fold (ids pre) (ids post).
  replace (filter _ (ids pre)) with (@nil nat).
  - simpl. clear H1 E0. induction (ids post) as [|j l IH]; auto. simpl.
    rewrite (proj2 (mem_notin j (m_ticked m))) by (apply H2; simpl; auto). simpl. f_equal.
    apply IH. intros; apply H2; simpl; auto.
  - clear H2 E0. induction (ids pre) as [|j l IH]; auto. simpl.
    rewrite (proj2 (mem_in j (m_ticked m))) by (apply H1; simpl; auto). simpl. apply IH.
    intros; apply H1; simpl; auto.
Qed.

Lemma tick_ids_next fuel t : forall l fin (m m' : mach) fin',
  tick_ids R fuel t l fin m = Some (m', fin') -> m_next m' = m_next m.
Proof.
  induction l as [|id l IH]; intros fin m m' fin'; simpl.
  - intros Y; injection Y as <- <-; auto.
  - destruct (find_work id (m_active m)) as [w|]; [|apply IH].
    destruct (work_tick R fuel (OWork id) w t (log m (EWork id))) as [[[m1 w1] r]|] eqn:HW; [|discriminate].
    apply work_tick_flows in HW. destruct HW as (rs & _ & (_ & _ & Z & _) & _).
    intros H. apply IH in H. rewrite H. exact Z.
Qed.

Lemma tick_scheduled_lift fuel t (m m' : mach) b : Rb (Running t) m ->
  tick_scheduled R fuel t m = Some (m', b) ->
  Rb (Running t) m' /\ all_ticked m' /\ m_invoked m' = m_invoked m /\ m_depth m' = m_depth m /\ m_snow m' = m_snow m /\
  (b = true -> m_queue m' = m_queue m).
Proof.
  intros [HQ (pre & post & Ea & H1 & H2) HT]. unfold tick_scheduled.
  assert (Du : due m = ids post) by (apply due_post with pre; auto). rewrite Du.
  destruct (tick_ids R fuel t (ids post) [] m) as [[m1 fin]|] eqn:HI; [|discriminate].
  intros Y; injection Y as <- <-. rewrite fold_dones.
  assert (Nx := tick_ids_next _ _ _ _ _ HI).
  destruct (@tick_ids_lift fuel t post pre _ _ _ _ _ Ea H1 H2 (fun id (I : In id []) => match I with end) HI HQ) as
    ((HJ & HP) & Ei & Tk & Iv & Dp & Sn).
  split; [split|]; cbn [m_active m_ticked m_queue m_world m_next m_snow m_invoked m_depth].
  - split; cbn [m_active m_ticked m_queue m_world m_next m_snow set_active set_ticked].
    + assert (Z := J_remove fin HJ). destruct Z; constructor; auto.
    + rewrite vact_removed, Tk. exact HP.
  - apply sorted_all. intros id I. cbn in I. apply in_ids_remove in I. destruct I as [I _].
    rewrite Ei, Ea in I. unfold ids in I. rewrite map_app, in_app_iff in I. cbn. rewrite in_app_iff.
    destruct I as [I|I]; auto. left. rewrite Tk. auto.
  - intros id. cbn. rewrite Nx, in_app_iff, Tk. intros [I|I]; auto.
    apply (j_next (proj1 HQ)). rewrite Ea. unfold ids. rewrite map_app, in_app_iff. auto.
  - split; [|cbn; repeat (split; [auto; fail|])].
    + intros id I. cbn in I. cbn. apply in_ids_remove in I. destruct I as [I _].
      rewrite Ei, Ea in I. unfold ids in I. rewrite map_app, in_app_iff in I. rewrite in_app_iff.
      destruct I as [I|I]; auto. left. rewrite Tk. auto.
    + intros Hb. destruct (ids post); [|discriminate]. simpl in HI. injection HI as <- <-. auto.
Qed.

Lemma run_invoked_lift fuel t : forall l (m m' : mach), Rb (Running t) m -> all_ticked m ->
  run_invoked R fuel t l m = Some m' ->
  Rb (Running t) m' /\ all_ticked m' /\ m_invoked m' = m_invoked m /\ m_depth m' = m_depth m /\ m_snow m' = m_snow m /\
  (l = [] -> m' = m).
Proof.
  induction l as [|i l IH]; intros m m' HR HA; simpl.
  { intros Y; injection Y as <-. repeat (split; [auto; fail|]). auto. }
  destruct (m_inv m i) as [w|] eqn:Hi.
  2:{ intros H. destruct (IH _ _ HR HA H) as (Z1 & Z2 & Z3 & Z4 & Z5 & _).
      repeat (split; [auto; fail|]). discriminate. }
  destruct (work_tick R fuel (OInv i) w t m) as [[[m1 w1] r]|] eqn:HW; [|discriminate].
  apply work_tick_flows in HW. destruct HW as (rs & HW & F). intros H.
  destruct HR as [[HJ HP] HO HT].
  assert (Ow : owned w = false) by (apply (j_inv HJ i); auto).
  destruct (@foreign_tick fuel w t (m_snow m) _ _ _ _ _ _ _ Ow HW HP) as (Z0 & Z1 & Z2).
  assert (HJ1 := J_flows F Z1 HJ).
  destruct F as [(S1 & S2 & S3 & S4 & S5 & S6 & S7 & S8 & S9) Qu].
  destruct (IH (set_inv m1 (set (m_inv m1) i (if r then None else Some w1))) m') as (Y1 & Y2 & Y3 & Y4 & Y5 & _); auto.
  - split.
    + split.
      * destruct HJ1 as [? ? ? ? ? Hv]. constructor; cbn [m_active m_next m_cmap m_queue m_inv set_inv]; auto.
        intros iid x. unfold set. destruct (i =? iid); [|apply Hv]. destruct r; [discriminate|].
        intros Y; injection Y as <-. auto.
      * cbn [m_active m_ticked m_queue m_world m_snow set_inv].
        rewrite S8, S4, S1, Qu, vq_app, vq_acts; auto.
    + cbn [m_active m_ticked set_inv]. rewrite S8, S4. auto.
    + cbn [m_next m_ticked set_inv]. rewrite S8, S3. auto.
  - intros id. cbn [m_active m_ticked set_inv]. rewrite S8, S4. apply HA.
  - cbn in Y3, Y4, Y5. split; auto. split; auto. repeat (split; [congruence|]). discriminate.
Qed.

Lemma round_lift fuel t ph (m m2 m3 : mach) b : ph = Begun t \/ ph = Running t -> Rb ph m -> t <= m_snow m -> m_invoked m = [] ->
  tick_scheduled R fuel t (fst (drain t m)) = Some (m2, b) ->
  execute_invoked R fuel t m2 = Some m3 ->
  Rb (Running t) m3 /\ all_ticked m3 /\ m_invoked m3 = [] /\ m_depth m3 = m_depth m /\ m_snow m3 = m_snow m /\
  (b = true -> snd (drain t m) = false -> m_queue m3 = []).
Proof.
  intros Hph [[HJ HP] HO HT] Ht Hi. unfold drain. cbn [fst snd].
  rewrite later_max, Nat.max_l by auto.
  destruct (@drain_lift ph (m_ticked m) (m_queue m) (set_sched m (m_snow m) [])) as
    (D1 & D2 & D3 & D4 & D5 & D6 & D7 & D8 & D9); auto.
  { destruct HJ; constructor; auto. }
  cbn [m_snow m_queue m_ticked m_depth set_sched] in *.
  set (m1 := fold_left (@drain_one K W) (m_queue m) (set_sched m (m_snow m) [])) in *.
  assert (R1 : Rb (Running t) m1).
  { split.
    - split; [destruct D1; constructor; auto; rewrite D6; constructor|]. rewrite D5, D6, D7. destruct Hph; subst ph; [apply Hgo|]; exact D2.
    - rewrite D7; auto.
    - rewrite D7; auto. }
  intros HTS HEI.
  destruct (tick_scheduled_lift _ R1 HTS) as (R2 & A2 & I2 & P2 & S2 & Q2).
  unfold execute_invoked in HEI.
  destruct (@run_invoked_lift fuel t (m_invoked m2) (set_invoked m2 []) m3) as (R3 & A3 & I3 & P3 & S3 & Q3); auto.
  { destruct R2 as [[[J1 J2 J3 J4 J5 J6] HP2] HO2 HT2]. split; auto. split; auto. constructor; auto. }
  cbn [m_invoked m_depth m_snow set_invoked] in *.
  split; auto. split; auto. split; auto. split; [congruence|]. split; [congruence|].
  intros -> Hq. assert (Em : m_queue m = []) by (destruct (m_queue m); [auto|discriminate]).
  assert (E1 : m_invoked m1 = []) by (unfold m1; rewrite Em; auto).
  rewrite Q3 by congruence. cbn [m_queue set_invoked]. rewrite Q2, D6; auto.
Qed.

Lemma rounds_lift fuel t : forall n ph (m m' : mach), ph = Begun t \/ ph = Running t -> Rb ph m -> t <= m_snow m -> m_invoked m = [] ->
  rounds R n fuel t m = Fine m' ->
  Rb (Running t) m' /\ all_ticked m' /\ m_invoked m' = [] /\ m_queue m' = [] /\ m_snow m' = m_snow m.
Proof.
  induction n as [|n IH]; intros ph m m' Hph HR Ht Hi; cbn [rounds];
    destruct (drain t m) as [m1 had] eqn:HD;
    destruct (tick_scheduled R fuel t m1) as [[m2 b]|] eqn:HTS; try discriminate;
    destruct (execute_invoked R fuel t m2) as [m3|] eqn:HE; try discriminate;
    assert (E1 : fst (drain t m) = m1) by (rewrite HD; auto);
    assert (E2 : snd (drain t m) = had) by (rewrite HD; auto);
    rewrite <- E1 in HTS; destruct (round_lift _ Hph HR Ht Hi HTS HE) as (R3 & A3 & I3 & P3 & S3 & Q3);
    destruct (b && negb had) eqn:Hb; try discriminate.
  - intros Y; injection Y as <-. apply andb_true_iff in Hb. destruct Hb as [-> Hn].
    destruct had; [discriminate|]. auto 6.
  - intros Y; injection Y as <-. apply andb_true_iff in Hb. destruct Hb as [-> Hn].
    destruct had; [discriminate|]. auto 6.
  - intros H. destruct (IH (Running t) m3 m') as (Z1 & Z2 & Z3 & Z4 & Z5); auto; [lia|].
    repeat (split; [auto; fail|]). congruence.
Qed.

(** Between ticks. *)
Record Bt (m : mach) : Prop := mkBt {
  t_q : Q Between (m_ticked m) [] m;
  t_all : all_ticked m;
  t_tk : forall id, In id (m_ticked m) -> id < m_next m;
  t_inv : m_invoked m = []
}.

Lemma rounds_snow n fuel t (m : mach) :
  rounds R n fuel t m = rounds R n fuel t (set_sched m (Nat.max (m_snow m) t) (m_queue m)).
Proof.
  assert (D : drain t m = drain t (set_sched m (Nat.max (m_snow m) t) (m_queue m))).
  { unfold drain. cbn [m_queue set_sched m_snow]. f_equal. f_equal.
    rewrite !later_max. unfold set_sched. cbn. f_equal. lia. }
  destruct n; cbn [rounds]; rewrite D; auto.
Qed.

Lemma vact_untick tk l : vact [] [] l = map (fun x : bool * work K => (false, snd x)) (vact tk [] l).
Proof. unfold vact. rewrite map_map. reflexivity. Qed.

Lemma tick_lift fuel t (m m' : mach) : Bt m ->
  tick_to R fuel t (begin t m) = Fine m' ->
  Bt (set_world m' (note XEnd (m_world m'))) /\ m_queue m' = [] /\ m_snow m' = Nat.max (m_snow m) t.
Proof.
  intros [(HJ & HP) HA HT Hi]. unfold tick_to. rewrite rounds_snow.
  cbn [m_depth begin set_world m_snow log set_ticked set_now m_queue].
  match goal with |- rounds R _ _ _ ?x = _ -> _ => set (m0 := x) end. intros H.
  apply (@rounds_lift _ _ _ (Begun t)) in H; auto.
  - destruct H as (HR & A2 & I2 & Q2 & S2). split; [|split]; auto.
    destruct HR as [[J2 P2] O2 T2]. split; auto.
    split; [destruct J2; constructor; auto|].
    cbn [m_snow m_ticked m_active m_queue m_world set_world]. rewrite Q2 in *. apply (@Hend t); auto.
    apply vact_true. auto.
  - split.
    + split; [destruct HJ; constructor; auto|].
      unfold m0. cbn [m_snow m_ticked m_active m_queue m_world set_sched log set_ticked set_now begin set_world].
      rewrite (vact_untick (m_ticked m)). apply Hbegin; auto. apply vact_true. auto.
    + exists [], (m_active m). split; auto.
    + simpl. tauto.
  - unfold m0. cbn. lia.
Qed.

Lemma performs_lift (m : mach) w rs : J m -> Forall (@rq_ok O X) rs -> forall ph tk,
  P ph (m_snow m) (vact tk [] (m_active m)) (vq (m_queue m) ++ vr (m_snow m) rs) w ->
  Q ph tk [] (performs (set_world m w) rs).
Proof.
  intros HJ F ph tk HP. destruct (performs_flows rs (set_world m w)) as [Fl Hw].
  assert (J1 : J (performs (set_world m w) rs)).
  { apply (J_flows Fl); auto. destruct HJ; constructor; auto. }
  destruct Fl as [(S1 & S2 & S3 & S4 & S5 & S6 & S7 & S8 & S9) Qu]. split; auto.
  rewrite Hw, S1, S4, Qu. cbn [m_snow m_active m_queue m_world set_world].
  rewrite vq_app, vq_acts; auto.
Qed.

Lemma sys_lift fuel (m m' : mach) a : Bt m -> sys T down user fuel m a = Fine m' -> Bt m'.
Proof.
  intros HB. destruct a as [cs|d|t]; cbn [sys].
  - cbn [step]. intros Y; injection Y as <-. destruct HB as [(HJ & HP) HA HT Hi].
    destruct (@cmds_ok Between (m_snow m) (vact (m_ticked m) [] (m_active m)) (vq (m_queue m)) cs (clear (m_world m))) as [F HP2].
    { auto. } { constructor. } { cbn. rewrite app_nil_r. apply Hclear in HP. exact HP. }
    assert (Z := @performs_lift _ _ _ HJ F _ _ HP2).
    destruct (performs_flows (w_rs (fold_left (do_cmd T down) cs (clear (m_world m))))
       (set_world m (fold_left (do_cmd T down) cs (clear (m_world m))))) as [[(S1 & S2 & S3 & S4 & S5 & S6 & S7 & S8 & S9) Qu] Hw].
    cbn in S4, S8, S3, S7. split.
    + rewrite S8. exact Z.
    + intros id. rewrite S4, S8. apply HA.
    + rewrite S8, S3. auto.
    + rewrite S7. auto.
  - cbn [step]. unfold tick. cbn [m_now begin set_world].
    destruct (tick_to R fuel (m_now m + d) (begin (m_now m + d) m)) as [m1|m1|] eqn:H; try discriminate.
    intros Y; injection Y as <-. apply (@tick_lift _ _ _ _ HB H).
  - cbn [step]. destruct (tick_to R fuel t (begin t m)) as [m1|m1|] eqn:H; try discriminate.
    intros Y; injection Y as <-. apply (@tick_lift _ _ _ _ HB H).
Qed.

Lemma Bt_start depth : Bt (start T depth).
Proof.
  split; simpl; auto; try tauto.
  - split; [|exact Hinit]. constructor; cbn; try tauto; try constructor; try discriminate.
  - intros id I. destruct I.
Qed.

Lemma syss_lift fuel h : forall m m' : mach, Bt m -> syss T down user fuel m h = Fine m' -> Bt m'.
Proof.
  induction h as [|a h IH]; intros m m' HB; cbn [syss].
  - intros Y; injection Y as <-; auto.
  - destruct (sys T down user fuel m a) as [m1|m1|] eqn:H; try discriminate.
    apply IH. apply (@sys_lift _ _ _ _ HB H).
Qed.

(** Whatever history of the system: the invariant holds between ticks. *)
Theorem lift fuel depth h m : syss T down user fuel (start T depth) h = Fine m ->
  exists l q, P Between (m_snow m) l q (m_world m) /\ Forall (fun x => fst x = true) l.
Proof.
  intros H. apply (@syss_lift _ _ _ _ (Bt_start depth)) in H. destruct H as [(_ & HP) HA _ _].
  exists (vact (m_ticked m) [] (m_active m)), (vq (m_queue m)). split; auto.
  apply vact_true. auto.
Qed.
End Lift.

(** For operators to which it does not matter what the other tasks do. *)
Section LiftAny.
Variables A B E S O X : Type.
Variable T : timed A B E S O X.
Variable down : list (ncall B E) -> bool * list (req X).
Variable user : X -> nat -> list (tev A B E) -> X * bool * list (cmd A E X).
Notation W := (world A B E S O X).
Notation K := (clo O X).
Notation R := (run T down user).
Variable P : option nat -> nat -> list (bool * work K) -> list (qop O X) -> W -> Prop.
Hypothesis Hclear : forall ph now l q w, P ph now l q w <-> P ph now l q (clear w).
Hypothesis Hcmd : forall ph now l q w c, is_up c -> Forall (@rq_ok O X) (w_rs w) ->
  P ph now l (q ++ vr now (w_rs w)) w ->
  Forall (@rq_ok O X) (w_rs (do_cmd T down w c)) /\
  P ph now l (q ++ vr now (w_rs (do_cmd T down w c))) (do_cmd T down w c).
Hypothesis Hrun : forall fuel t now l1 wk l2 q w wk' r w' rs,
  P (Some t) now (l1 ++ (false, wk) :: l2) q w -> Forall (fun x => fst x = true) l1 -> owned wk = true ->
  wtick R fuel wk t w = Some (wk', r, w', rs) ->
  Forall (@rq_ok O X) rs /\
  P (Some t) now (l1 ++ (if r then [] else [(true, wk')]) ++ l2) (q ++ vr now rs) w'.
Hypothesis Hbegin : forall now l q w u, P None now l q w -> Forall (fun x => fst x = true) l ->
  P (Some u) (Nat.max now u) (map (fun x => (false, snd x)) l) q (note (XTick u) w).
Hypothesis Hend : forall t now l w, P (Some t) now l [] w -> Forall (fun x => fst x = true) l ->
  P None now l [] (note XEnd w).
Hypothesis HS : forall ph now l w q g, P ph now l (QS w :: q) g -> owned w = true -> P ph now (l ++ [(false, w)]) q g.
Hypothesis HC : forall ph now l q g, P ph now l (QC _ _ :: q) g -> P ph now [] q g.
Hypothesis Hinit : P None 0 [] [] (mkW (t_new T) false false false false [] []).

Theorem lift_any fuel depth h m : syss T down user fuel (start T depth) h = Fine m ->
  exists l q, P None (m_snow m) l q (m_world m) /\ Forall (fun x => fst x = true) l.
Proof.
  apply (@lift _ _ _ _ _ _ T down user (fun ph => P (given ph))) with (able := fun _ => True); cbn [given]; eauto.
  intros. apply Forall_forall. auto.
Qed.
End LiftAny.
