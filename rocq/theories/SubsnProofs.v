(** [SharedSubscription]: invariants of all interleavings. *)
From Verif Require Import Base SubsnModel.
Set Implicit Arguments.

(** Counting commands. *)
Definition cnt (f : cmd -> nat) (l : list cmd) : nat := list_sum (map f l).
Lemma cnt_app f a b : cnt f (a ++ b) = cnt f a + cnt f b.
Proof. unfold cnt. rewrite map_app. induction (map f a); simpl; lia. Qed.
Lemma cnt_cons f c l : cnt f (c :: l) = f c + cnt f l.
Proof. reflexivity. Qed.
Lemma cnt_nil f : cnt f [] = 0.
Proof. reflexivity. Qed.

Arguments cnt : simpl never.

Definition fT c := match c with KTryUnsub | KDefer => 1 | _ => 0 end.
Definition fN c := match c with KNotes k => k | _ => 0 end.
Definition fA c := match c with KApplyLock | KQueue _ => 1 | _ => 0 end.
Definition fQ c := match c with KQueue (S _) => 1 | _ => 0 end.
Definition fB c := match c with KQueue (S (S _)) => 1 | _ => 0 end.
Definition fF c := match c with KFlag => 1 | _ => 0 end.
Definition fD c := match c with KData => 1 | _ => 0 end.
Definition fR c := match c with KRun _ => 1 | _ => 0 end.
Definition fU c := match c with KUnlock => 1 | _ => 0 end.
Definition drains : list cmd -> list nat := flat_map (fun c => match c with KRun l => l | _ => [] end).

Definition stored : list event -> list nat := flat_map (fun e => match e with VStored n => [n] | _ => [] end).
Definition ran : list event -> list nat := flat_map (fun e => match e with VRun n => [n] | _ => [] end).
Definition late : list event -> list nat := flat_map (fun e => match e with VLate n => [n] | _ => [] end).

Lemma drains_app a b : drains (a ++ b) = drains a ++ drains b.
Proof. apply flat_map_app. Qed.
Lemma stored_app a b : stored (a ++ b) = stored a ++ stored b.
Proof. apply flat_map_app. Qed.
Lemma ran_app a b : ran (a ++ b) = ran a ++ ran b.
Proof. apply flat_map_app. Qed.
Lemma drains_none l : cnt fR l = 0 -> drains l = [].
Proof. induction l as [|c l IH]; rewrite ?cnt_cons; simpl; auto. destruct c; simpl; intros; try lia; auto. Qed.

Lemma drains_cons c l : drains (c :: l) = (match c with KRun r => r | _ => [] end) ++ drains l.
Proof. reflexivity. Qed.
Lemma drains_nil : drains [] = [].
Proof. reflexivity. Qed.
Lemma late_app a b : late (a ++ b) = late a ++ late b.
Proof. apply flat_map_app. Qed.
Lemma stored_one e : stored [e] = match e with VStored n => [n] | _ => [] end.
Proof. destruct e; reflexivity. Qed.
Lemma ran_one e : ran [e] = match e with VRun n => [n] | _ => [] end.
Proof. destruct e; reflexivity. Qed.
Arguments drains : simpl never.
Arguments stored : simpl never.
Arguments ran : simpl never.
Arguments late : simpl never.

Definition all (s : st) : list cmd := concat (v_thr s).

Section Proofs.
  Variable body : nat -> list op.
  Notation exec := (exec body).
  Notation step := (step body).
  Notation run := (run body).
  Notation run_teardown := (run_teardown body).

  Lemma split_nth A (l : list A) t x : nth_error l t = Some x ->
    l = firstn t l ++ x :: skipn (S t) l /\ length (firstn t l) = t.
  Proof.
    revert t; induction l as [|y l IH]; intros [|t] H; simpl in *; try discriminate.
    - injection H as ->; auto.
    - destruct (IH t H) as [H1 H2]. split; [f_equal; exact H1|auto].
  Qed.

  Lemma step_inv t s s' : step t s = Some s' -> exists a b c K l s1,
    v_thr s = a ++ (c :: K) :: b /\ length a = t /\ exec t c s = Some (l, s1) /\
    s' = with_thr s1 (a ++ (l ++ K) :: b).
  Proof.
    unfold SubsnModel.step. destruct (nth_error (v_thr s) t) as [[|c K]|] eqn:En; try discriminate.
    destruct (exec t c s) as [[l s1]|] eqn:Ee; [|discriminate].
    intros H; injection H as <-.
    destruct (split_nth _ _ En) as [H1 H2].
    exists (firstn t (v_thr s)), (skipn (S t) (v_thr s)), c, K, l, s1. repeat split; auto.
  Qed.

  Definition plain_f (f : cmd -> nat) := (forall o, f (KOp o) = 0) /\ f KApply = 0.
  Lemma cnt_teardown f n : plain_f f -> cnt f (run_teardown n) = 0.
  Proof.
    intros [H1 H2]. unfold SubsnModel.run_teardown. destruct (body n) as [|o l]; auto.
    rewrite cnt_app, cnt_cons, cnt_nil, H2, Nat.add_0_r.
    generalize (o :: l). intros l0; induction l0; auto. cbn [map]. rewrite cnt_cons, H1; auto.
  Qed.
  Lemma drains_teardown n : drains (run_teardown n) = [].
  Proof. apply drains_none, cnt_teardown. split; auto. Qed.
  Lemma cnt_begin f o : plain_f f -> f KObserve = 0 -> f KGone = 0 -> (forall n, f (KLock n) = 0) -> cnt f (begin o) = 0.
  Proof. intros [H1 H2] H3 H4 H5. destruct o; simpl; unfold cnt; simpl; rewrite ?H2, ?H3, ?H4, ?H5; auto. Qed.

  (** The invariant. A token is an unsubscribe() that found the mutex taken, from its
      try_lock until its notification is applied. *)
  Record InvC (s : st) (C : list cmd) : Prop := {
    i1 : v_queue s + cnt fT C + cnt fN C <= 1;
    i2 : v_observed s = false -> v_queue s + cnt fT C + cnt fN C = 0;
    i3 : 0 < cnt fA C -> v_observed s = true /\ cnt fT C = 0;
    i4 : 0 < cnt fQ C -> v_queue s = 0;
    i5 : cnt fB C = 0;
    i6 : v_flag s = true \/ 0 < cnt fF C ->
         v_observed s = true /\ v_queue s + cnt fT C + cnt fN C = 0;
    i7 : v_observed s = true -> v_queue s + cnt fT C + cnt fN C = 0 ->
         v_closed s = true \/ 0 < cnt fD C;
    i8 : v_panic s = false;
    i9 : cnt fR C <= (if v_closed s then 1 else 0);
    i10 : v_closed s = true -> v_fins s = [];
    i11 : stored (v_log s) = ran (v_log s) ++ drains C ++ v_fins s;
    i12 : v_closed s = true \/ 0 < cnt fD C ->
          (v_observed s = true /\ v_queue s + cnt fT C + cnt fN C = 0) \/ v_refs s = 0
  }.

  Definition Inv (s : st) : Prop := InvC s (all s).

  Lemma fQA l : cnt fQ l <= cnt fA l.
  Proof. induction l as [|c l IH]; rewrite ?cnt_cons; simpl; auto. destruct c as [| | |[|d]| | | | | | | | | | | |]; simpl; lia. Qed.
  Lemma fBQ l : cnt fB l <= cnt fQ l.
  Proof. induction l as [|c l IH]; rewrite ?cnt_cons; simpl; auto. destruct c as [| | |[|[|d]]| | | | | | | | | | | |]; simpl; lia. Qed.

  Lemma Inv_init progs : Inv (init progs).
  Proof.
    assert (H : forall f, plain_f f -> cnt f (all (init progs)) = 0).
    { intros f [H1 H2]. unfold all, init; simpl. induction progs as [|p l IH]; simpl; auto.
      rewrite cnt_app, IH, Nat.add_0_r. induction p; simpl; auto. rewrite cnt_cons, H1; auto. }
    assert (P : plain_f fT /\ plain_f fN /\ plain_f fA /\ plain_f fQ /\ plain_f fB /\ plain_f fF /\ plain_f fD /\ plain_f fR)
      by (repeat split).
    destruct P as (P1 & P2 & P3 & P4 & P5 & P6 & P7 & P8).
    constructor; rewrite ?(H _ P1), ?(H _ P2), ?(H _ P3), ?(H _ P4), ?(H _ P5), ?(H _ P6), ?(H _ P7), ?(H _ P8); simpl; auto; try lia; try discriminate;
      try (intros [X|X]; [discriminate|lia]).
    rewrite drains_none by (apply H; auto). reflexivity.
  Qed.


  Lemma step_all t s s' : step t s = Some s' -> exists A R c l s1 th,
    all s = A ++ c :: R /\ exec t c s = Some (l, s1) /\ s' = with_thr s1 th /\ all s' = A ++ l ++ R.
  Proof.
    intros H. apply step_inv in H as (a & b & c & K & l & s1 & Hthr & Hlen & He & ->).
    exists (concat a), (K ++ concat b), c, l, s1, (a ++ (l ++ K) :: b).
    unfold all. rewrite Hthr. simpl. rewrite !concat_app. simpl. rewrite <- app_assoc. auto.
  Qed.

  Ltac fin := constructor; rewrite ?cnt_app, ?cnt_cons, ?cnt_nil, ?drains_app, ?drains_cons; simpl in *;
    rewrite ?stored_app, ?ran_app, ?stored_one, ?ran_one; simpl; rewrite ?app_nil_r, ?cnt_teardown, ?drains_teardown by (split; reflexivity); auto; try lia;
    try (repeat match goal with b : bool |- _ => destruct b end; simpl in *; solve [lia | intuition (try discriminate; lia)]).

  Lemma Inv_step t s s' : Inv s -> step t s = Some s' -> Inv s'.
  Proof.
    intros I H. apply step_all in H as (A & R & c & l & s1 & th & Hall & He & -> & Hall').
    unfold Inv in *. rewrite Hall in I. rewrite Hall'. clear Hall Hall'.
    destruct I as [I1 I2 I3 I4 I5 I6 I7 I8 I9 I10 I11 I12].
    rewrite ?cnt_app, ?cnt_cons, ?drains_app, ?drains_cons in *.
    pose proof (fQA A). pose proof (fQA R).
    assert (PT : forall f n, plain_f f -> cnt f (run_teardown n) = 0) by (intros; apply cnt_teardown; auto).
    assert (Pall : plain_f fT /\ plain_f fN /\ plain_f fA /\ plain_f fQ /\ plain_f fB /\ plain_f fF /\ plain_f fD /\ plain_f fR)
      by (repeat split).
    destruct Pall as (P1 & P2 & P3 & P4 & P5 & P6 & P7 & P8).
    assert (HdA : cnt fR A = 0 -> drains A = []) by apply drains_none.
    assert (HdR : cnt fR R = 0 -> drains R = []) by apply drains_none.
    destruct s as [lk cl fi ob fl q rf pa di lg th0]. simpl in *.
    destruct c as [o| | |d|k| | | | | |r|n|n| | |]; simpl in *.
    - (* KOp *)
      assert (Hb : (l = begin o \/ l = [] \/ l = [KAskLock]) /\
         exists lg', s1 = mkSt lk cl fi ob fl q rf pa di lg' th0 /\ stored lg' = stored lg /\ ran lg' = ran lg).
      { destruct o; [| |destruct (fl || ob)| |]; injection He as <- <-; simpl;
          (split; [auto|eexists; (split; [reflexivity|simpl; rewrite ?stored_app, ?ran_app, ?stored_one, ?ran_one; simpl; rewrite ?app_nil_r; auto])]). }
      destruct Hb as (Hl & lg' & -> & Hst & Hrn). clear He.
      assert (Z : forall f, plain_f f -> f KObserve = 0 -> f KGone = 0 -> (forall n, f (KLock n) = 0) -> f KAskLock = 0 -> cnt f l = 0).
      { intros f Hf Ho Hg Hk Ha. destruct Hl as [-> | [-> | ->]]; auto using cnt_begin. rewrite cnt_cons, Ha; auto. }
      assert (Zd : drains l = []) by (apply drains_none, Z; auto).
      assert (Z1 : cnt fT l = 0 /\ cnt fN l = 0 /\ cnt fA l = 0 /\ cnt fQ l = 0 /\ cnt fB l = 0 /\ cnt fF l = 0 /\ cnt fD l = 0 /\ cnt fR l = 0)
        by (repeat split; apply Z; auto).
      destruct Z1 as (Z1 & Z2 & Z3 & Z4 & Z5 & Z6 & Z7 & Z8).
      constructor; rewrite ?cnt_app, ?drains_app, ?Z1, ?Z2, ?Z3, ?Z4, ?Z5, ?Z6, ?Z7, ?Z8, ?Zd; simpl; rewrite ?Hst, ?Hrn; auto.
    - (* KApply *) injection He as <- <-. destruct (Nat.eqb_spec q 0) as [Hq|Hq]; simpl; fin.
    - (* KApplyLock *) destruct lk; injection He as <- <-; fin.
    - (* KQueue *)
      destruct d as [|[|d]]; simpl in *; [| |lia]; (destruct (Nat.eqb_spec q 0) as [Hq|Hq]; injection He as <- <-; fin).
    - (* KNotes *)
      destruct k as [|k]; [injection He as <- <-; fin|].
      destruct fl; simpl in He; injection He as <- <-; fin.
    - (* KFlag *) injection He as <- <-; fin.
    - (* KObserve *) destruct ob; injection He as <- <-; fin.
    - (* KTryUnsub *) destruct lk; injection He as <- <-; fin.
    - (* KDefer *) destruct fl; injection He as <- <-; fin.
    - (* KData *) destruct cl; injection He as <- <-; fin.
      rewrite I11, HdA, HdR by lia. simpl; rewrite app_nil_r; reflexivity.
    - (* KRun *) destruct r as [|n r]; injection He as <- <-; fin.
      rewrite I11, HdA, HdR by (destruct cl; lia). simpl; rewrite !app_nil_r, <- !app_assoc. reflexivity.
    - (* KLock *) destruct lk; [discriminate|]. injection He as <- <-; fin.
    - (* KPush *) destruct cl; injection He as <- <-; fin.
      rewrite I11, <- !app_assoc. reflexivity.
    - (* KAskLock *) destruct lk; injection He as <- <-; fin.
    - (* KUnlock *) injection He as <- <-; fin.
    - (* KGone *)
      destruct (freed _ _) eqn:Ef;
        [unfold freed in Ef; simpl in Ef; apply andb_prop in Ef as [Ef _]; apply Nat.eqb_eq in Ef|]; injection He as <- <-; [destruct (q =? 0)|]; fin.
  Qed.

  Lemma run_ind (P : st -> Prop) : (forall t s s', P s -> step t s = Some s' -> P s') ->
    forall sched s, P s -> P (run sched s).
  Proof.
    intros Hs sched; induction sched as [|t r IH]; intros s H; simpl; auto.
    apply IH. destruct (step t s) eqn:E; eauto.
  Qed.

  Lemma Inv_run progs sched : Inv (run sched (init progs)).
  Proof. apply run_ind; eauto using Inv_step, Inv_init. Qed.

  (** What the log says. *)
  Definition fO c := match c with KObserve | KTryUnsub | KDefer => 1 | _ => 0 end.
  Definition asked (lg : list event) := exists t, In (VBegin t OUnsub) lg.
  Record InvL (s : st) (C : list cmd) : Prop := {
    l1 : v_observed s = true \/ 0 < cnt fO C -> asked (v_log s);
    l2 : forall n, In (VRun n) (v_log s) \/ In (VLate n) (v_log s) -> v_closed s = true;
    l3 : forall t, In (VAnswer t true) (v_log s) -> v_observed s = true \/ v_refs s = 0
  }.

  Lemma InvL_init progs : InvL (init progs) (all (init progs)).
  Proof.
    assert (H : cnt fO (all (init progs)) = 0).
    { unfold all, init; simpl. induction progs as [|p l IH]; simpl; auto.
      rewrite cnt_app, IH, Nat.add_0_r. induction p; simpl; auto. }
    constructor; rewrite ?H; simpl; intuition (try discriminate; try lia).
  Qed.

  Lemma InvL_step t s s' : Inv s -> InvL s (all s) -> step t s = Some s' -> InvL s' (all s').
  Proof.
    intros I L H. apply step_all in H as (A & R & c & l & s1 & th & Hall & He & -> & Hall').
    unfold Inv in *. rewrite Hall in I, L. rewrite Hall'. clear Hall Hall'.
    destruct I as [_ _ _ _ _ I6 _ _ I9 _ _ I12]. destruct L as [L1 L2 L3].
    rewrite ?cnt_app, ?cnt_cons in *.
    assert (PT : forall n, cnt fO (run_teardown n) = 0) by (intros; apply cnt_teardown; split; auto).
    destruct s as [lk cl fi ob fl q rf pa di lg th0]. simpl in *.
    assert (IN : forall (l0 : list event) x e, In x (l0 ++ [e]) <-> In x l0 \/ e = x)
      by (intros; rewrite in_app_iff; simpl; intuition).
    assert (AS : forall l0 e, asked l0 -> asked (l0 ++ [e])) by (intros l0 e [u Hu]; exists u; apply IN; auto).
    destruct c as [o| | |d|k| | | | | |r|n|n| | |]; simpl in *.
    - destruct o; [| |destruct (fl || ob) eqn:Eo| |]; injection He as <- <-;
        constructor; simpl; rewrite ?cnt_app, ?cnt_cons, ?cnt_nil; simpl; try setoid_rewrite IN; try setoid_rewrite IN;
        try (intros; apply AS; try apply AS; apply L1; intuition lia);
        try (intros; eapply L2; intuition (eauto; discriminate));
        try (intros; eapply L3; intuition (eauto; discriminate)).
      + intros _. exists t. apply IN; auto.
      + intros u [[?|?]|?]; try discriminate; eauto. left. destruct ob; auto. destruct fl; try discriminate.
        destruct I6 as [? ?]; auto.
    - injection He as <- <-. destruct (q =? 0); constructor; simpl; rewrite ?cnt_app, ?cnt_cons, ?cnt_nil; simpl; auto.
    - destruct lk; injection He as <- <-; constructor; simpl; rewrite ?cnt_app, ?cnt_cons, ?cnt_nil; simpl; auto.
    - destruct (d =? 10); [|destruct (q =? 0)]; injection He as <- <-; constructor; simpl; rewrite ?cnt_app, ?cnt_cons, ?cnt_nil; simpl; auto.
    - destruct k as [|k]; [|destruct fl]; injection He as <- <-; constructor; simpl; rewrite ?cnt_app, ?cnt_cons, ?cnt_nil; simpl; auto.
    - injection He as <- <-; constructor; simpl; rewrite ?cnt_app, ?cnt_cons, ?cnt_nil; simpl; auto.
    - injection He as <- <-; constructor; simpl; rewrite ?cnt_app, ?cnt_cons, ?cnt_nil; simpl; auto.
      intros _. apply L1. right; lia.
    - destruct lk; injection He as <- <-; constructor; simpl; rewrite ?cnt_app, ?cnt_cons, ?cnt_nil; simpl; auto;
        intros; apply L1; intuition lia.
    - destruct fl; injection He as <- <-; constructor; simpl; rewrite ?cnt_app, ?cnt_cons, ?cnt_nil; simpl; auto;
        intros; apply L1; intuition lia.
    - destruct cl; injection He as <- <-; constructor; simpl; rewrite ?cnt_app, ?cnt_cons, ?cnt_nil; simpl; auto.
    - destruct r; injection He as <- <-; constructor; simpl; rewrite ?cnt_app, ?cnt_cons, ?cnt_nil, ?PT; simpl; auto.
      + intros ? _. destruct cl; auto. lia.
      + intros u Hu. apply IN in Hu as [Hu|Hu]; [eauto|discriminate].
    - destruct lk; [discriminate|]. injection He as <- <-; constructor; simpl; rewrite ?cnt_app, ?cnt_cons, ?cnt_nil; simpl; auto.
    - destruct cl; injection He as <- <-; constructor; simpl; rewrite ?cnt_app, ?cnt_cons, ?cnt_nil, ?PT; simpl; auto.
      + intros u Hu. apply IN in Hu as [Hu|Hu]; [eauto|discriminate].
      + intros m [Hm|Hm]; apply IN in Hm as [Hm|Hm]; try discriminate; eapply L2; eauto.
      + intros u Hu. apply IN in Hu as [Hu|Hu]; [eauto|discriminate].
    - destruct lk; injection He as <- <-; constructor; simpl; rewrite ?cnt_app, ?cnt_cons, ?cnt_nil, ?PT; simpl; auto.
      + intros m [Hm|Hm]; apply IN in Hm as [Hm|Hm]; try discriminate; eapply L2; eauto.
      + intros u Hu. apply IN in Hu as [Hu|Hu]; [eauto|discriminate].
      + intros m [Hm|Hm]; apply IN in Hm as [Hm|Hm]; try discriminate; eapply L2; eauto.
      + intros u Hu. apply IN in Hu as [Hu|Hu]; [eauto|]. injection Hu as _ ->. tauto.
    - injection He as <- <-; constructor; simpl; rewrite ?cnt_app, ?cnt_cons, ?cnt_nil; simpl; auto.
    - destruct (freed _ _); injection He as <- <-; [destruct (q =? 0)|]; constructor; simpl; rewrite ?cnt_app, ?cnt_cons, ?cnt_nil; simpl; auto;
        intros u Hu; destruct (L3 u Hu); auto; right; lia.
  Qed.

  (** An unsubscribe() that has begun is observed, or is about to be. *)
  Definition fOb c := match c with KObserve => 1 | _ => 0 end.
  Definition seen_ask (s : st) : Prop :=
    asked (v_log s) -> v_observed s = true \/ 0 < cnt fOb (all s).
  Lemma seen_ask_step t s s' : seen_ask s -> step t s = Some s' -> seen_ask s'.
  Proof.
    unfold seen_ask. intros L H. apply step_all in H as (A & R & c & l & s1 & th & Hall & He & -> & Hall').
    rewrite Hall in L. rewrite Hall'. clear Hall Hall'. rewrite ?cnt_app, ?cnt_cons in *.
    assert (PT : forall n, cnt fOb (run_teardown n) = 0) by (intros; apply cnt_teardown; split; auto).
    destruct s as [lk cl fi ob fl q rf pa di lg th0]. simpl in *.
    assert (AS : forall l0 e, asked (l0 ++ [e]) -> (forall u, e <> VBegin u OUnsub) -> asked l0).
    { intros l0 e [u Hu] He'. apply in_app_iff in Hu as [Hu|[Hu|[]]]; [exists u; auto|]. exfalso. apply (He' u). auto. }
    destruct c as [o| | |d|k| | | | | |r|n|n| | |]; simpl in *.
    - destruct o; [| |destruct (fl || ob)| |]; injection He as <- <-; simpl; rewrite ?cnt_cons, ?cnt_nil; simpl; intros Ha;
        try (right; lia); (apply AS in Ha; [|discriminate]); try (apply AS in Ha; [|discriminate]); auto.
    - injection He as <- <-; simpl. destruct (q =? 0); auto.
    - destruct lk; injection He as <- <-; auto.
    - destruct (d =? 10); [|destruct (q =? 0)]; injection He as <- <-; auto.
    - destruct k; [|destruct fl]; injection He as <- <-; auto.
    - injection He as <- <-; auto.
    - injection He as <- <-; auto.
    - destruct lk; injection He as <- <-; auto.
    - destruct fl; injection He as <- <-; auto.
    - destruct cl; injection He as <- <-; auto.
    - destruct r; injection He as <- <-; auto. simpl. rewrite cnt_app, PT. intros Ha. apply AS in Ha; [|discriminate]. auto.
    - destruct lk; [discriminate|]; injection He as <- <-; auto.
    - destruct cl; injection He as <- <-; simpl; rewrite ?PT; intros Ha; (apply AS in Ha; [|discriminate]); auto.
    - destruct lk; injection He as <- <-; simpl; intros Ha; (apply AS in Ha; [|discriminate]); auto.
    - injection He as <- <-; auto.
    - destruct (freed _ _); injection He as <- <-; [destruct (q =? 0)|]; auto.
  Qed.
  Lemma seen_ask_run progs sched : seen_ask (run sched (init progs)).
  Proof.
    apply run_ind; eauto using seen_ask_step. intros [t []].
  Qed.

  Lemma InvL_run progs sched : let s := run sched (init progs) in Inv s /\ InvL s (all s).
  Proof.
    cbv zeta. apply run_ind with (P := fun s => Inv s /\ InvL s (all s)); auto using Inv_init, InvL_init.
    intros t s s' [H1 H2] Hs. split; eauto using Inv_step, InvL_step.
  Qed.
End Proofs.
