(** [SharedSubscription]: what the stack of a thread can look like. *)
From Verif Require Import Base SubsnModel SubsnProofs.
Set Implicit Arguments.

Definition islast (o : op) : bool := match o with OLast => true | _ => false end.
Definition isadd (o : op) : bool := match o with OAdd _ => true | _ => false end.

(** The commands of an operation in progress, other than the drop of the last clone. *)
Definition oplike (c : cmd) : bool :=
  match c with
  | KOp o => negb (islast o)
  | KApply | KApplyLock | KObserve | KTryUnsub | KDefer | KLock _ | KAskLock => true
  | _ => false
  end.
(** The commands that run with the mutex held. *)
Definition inner (c : cmd) : bool :=
  match c with KQueue _ | KNotes _ | KFlag | KData | KRun _ | KPush _ => true | _ => false end.
Definition inside (c : cmd) : bool := oplike c || inner c.
Definition addlike (c : cmd) : bool :=
  match c with KOp o => isadd o | KLock _ => true | _ => false end.

(** The commands of an unsubscribe() are followed by its second try_apply_deferred. *)
Definition isT (c : cmd) : bool := match c with KObserve | KTryUnsub | KDefer => true | _ => false end.
Fixpoint adj (l : list cmd) : bool :=
  match l with
  | [] => true
  | c :: r => (if isT c then match r with KApply :: _ => true | _ => false end else true) && adj r
  end.

Lemma adj_app a b : adj a = true -> adj b = true -> adj (a ++ b) = true.
Proof.
  induction a as [|c a IH]; simpl; auto. intros H Hb. apply andb_prop in H as [H1 H2].
  rewrite IH by auto. rewrite andb_true_r. destruct (isT c); auto. destruct a; simpl in *; [discriminate|auto].
Qed.

Section Shape.
  Variable body : nat -> list op.
  Notation exec := (exec body).
  Notation step := (step body).
  Notation run := (run body).
  Notation run_teardown := (run_teardown body).
  Notation captures := (captures body).

  Hypothesis bodies : forall n, ~ In OLast (body n).

  Definition noadds : Prop := forall n m, ~ In (OAdd m) (body n).

  (** [d]: the thread drops its clone at the end. *)
  Inductive thread_ok (d : bool) (s : st) : bool -> list cmd -> Prop :=
  | tk_out B : forallb oplike B = true -> adj B = true ->
      thread_ok d s false (B ++ if d then [KOp OLast] else [])
  | tk_in X B : forallb inside X = true -> adj X = true ->
      (existsb oplike X = true -> v_closed s = true) ->
      (noadds -> existsb addlike X = false) ->
      forallb oplike B = true -> adj B = true ->
      thread_ok d s true (X ++ KUnlock :: B ++ if d then [KOp OLast] else [])
  | tk_drop B : d = true -> B = [KApply] \/ B = [KApplyLock] \/ B = [] ->
      thread_ok d s false (B ++ [KGone])
  | tk_drop_in X : d = true -> forallb inside X = true -> adj X = true ->
      (existsb oplike X = true -> v_closed s = true) ->
      (noadds -> existsb addlike X = false) ->
      thread_ok d s true (X ++ [KUnlock; KGone])
  | tk_dead : d = true -> thread_ok d s false []
  | tk_data : d = true -> v_refs s = 0 -> existsb captures (v_fins s) = false -> thread_ok d s false [KData]
  | tk_run l : d = true -> v_refs s = 0 -> existsb captures l = false -> thread_ok d s false [KRun l].

  Lemma teardown_oplike n : forallb oplike (run_teardown n) = true.
  Proof.
    unfold SubsnModel.run_teardown. pose proof (bodies n) as Hb. destruct (body n) as [|o l]; auto.
    revert Hb. generalize (o :: l). intros l0 Hb. rewrite forallb_app. simpl. rewrite andb_true_r.
    apply forallb_forall. intros c Hc. apply in_map_iff in Hc as (p & <- & Hp). destruct p; auto; contradiction.
  Qed.
  Lemma teardown_adj n : adj (run_teardown n) = true.
  Proof.
    unfold SubsnModel.run_teardown. destruct (body n) as [|o l]; auto. generalize (o :: l). intros l0.
    apply adj_app; auto. induction l0; auto.
  Qed.
  Lemma teardown_noadds n : noadds -> existsb addlike (run_teardown n) = false.
  Proof.
    intros Hn. unfold SubsnModel.run_teardown. pose proof (Hn n) as Hb. destruct (body n) as [|o l]; auto.
    revert Hb. generalize (o :: l). intros l0 Hb. rewrite existsb_app. simpl. rewrite orb_false_r.
    induction l0 as [|p l0 IH]; auto. simpl. rewrite IH; [|intros m Hm; apply (Hb m); right; auto].
    destruct p; auto. exfalso. apply (Hb n0). left; auto.
  Qed.
  Lemma teardown_nocap n : captures n = false -> run_teardown n = [].
  Proof. unfold SubsnModel.captures, SubsnModel.run_teardown. destruct (body n); auto; discriminate. Qed.

  Lemma begin_oplike o : islast o = false -> forallb oplike (begin o) = true.
  Proof. destruct o; auto; discriminate. Qed.
  Lemma begin_adj o : adj (begin o) = true.
  Proof. destruct o; auto. Qed.

  Lemma oplike_inside l : forallb oplike l = true -> forallb inside l = true.
  Proof. induction l as [|c l IH]; auto. simpl. unfold inside at 1. destruct (oplike c); simpl; auto; discriminate. Qed.

  (** What a step replaces the top of the stack by, when that is a command of an operation:
      commands of operations, or the mutex is taken. *)
  Lemma exec_oplike t c s l s1 : exec t c s = Some (l, s1) -> oplike c = true ->
    (v_closed s1 = v_closed s /\ v_refs s1 = v_refs s /\ v_fins s1 = v_fins s) /\
    ((v_lock s1 = v_lock s /\ forallb oplike l = true /\ (isT c = false -> adj l = true) /\
        (isT c = true -> l = [] \/ l = [KTryUnsub] \/ l = [KDefer]) /\
        (addlike c = false -> existsb addlike l = false)) \/
     (v_lock s = None /\ v_lock s1 = Some t /\ exists X, l = X ++ [KUnlock] /\
        forallb inside X = true /\ adj X = true /\ existsb oplike X = false /\ existsb addlike X = false)).
  Proof.
    intros He Ho. destruct s as [lk cl fi ob fl q rf pa di lg th0].
    destruct c as [o| | |d|k| | | | | |r|n|n| | |]; simpl in *; try discriminate.
    - destruct o; [| |destruct (fl || ob)| |]; simpl in *; injection He as <- <-; simpl; try discriminate;
        (split; [auto|]); left; repeat split; auto; try discriminate.
    - injection He as <- <-. simpl. split; auto. left. destruct (q =? 0); repeat split; auto; discriminate.
    - destruct lk; injection He as <- <-; simpl; (split; [auto|]).
      + left; repeat split; auto; discriminate.
      + right. repeat split; auto. exists [KQueue 0]. repeat split.
    - injection He as <- <-. simpl. split; auto. left. destruct ob; repeat split; auto; discriminate.
    - destruct lk; injection He as <- <-; simpl; (split; [auto|]).
      + left; repeat split; auto; discriminate.
      + right. repeat split; auto. exists [KQueue 0; KFlag; KData]. repeat split.
    - injection He as <- <-. destruct fl; simpl; (split; [auto|]); left; repeat split; auto; discriminate.
    - destruct lk; [discriminate|]. injection He as <- <-; simpl; (split; [auto|]).
      right. repeat split; auto. exists [KPush n]. repeat split.
    - destruct lk; injection He as <- <-; simpl; (split; [auto|]).
      + left; repeat split; auto; discriminate.
      + right. repeat split; auto. exists []. repeat split.
  Qed.

  (** The same for a command that runs with the mutex held. *)
  Lemma exec_inner t c s l s1 : exec t c s = Some (l, s1) -> inner c = true ->
    (0 < cnt fR [c] -> v_closed s = true) ->
    v_lock s1 = v_lock s /\ v_refs s1 = v_refs s /\ (v_closed s = true -> v_closed s1 = true) /\
    forallb inside l = true /\ adj l = true /\ (existsb oplike l = true -> v_closed s1 = true) /\
    (noadds -> existsb addlike l = false).
  Proof.
    intros He Ho Hc. destruct s as [lk cl fi ob fl q rf pa di lg th0].
    destruct c as [o| | |d|k| | | | | |r|n|n| | |]; simpl in *; try discriminate.
    - destruct (d =? 10); [|destruct (q =? 0)]; injection He as <- <-; simpl; repeat split; auto; discriminate.
    - destruct k; [|destruct fl]; injection He as <- <-; simpl; repeat split; auto; discriminate.
    - injection He as <- <-; simpl; repeat split; auto; discriminate.
    - destruct cl; injection He as <- <-; simpl; repeat split; auto; discriminate.
    - destruct r as [|n r]; injection He as <- <-; simpl; [repeat split; auto; discriminate|].
      assert (Hcl : cl = true) by (apply Hc; rewrite cnt_cons; simpl; lia).
      rewrite forallb_app, existsb_app. rewrite oplike_inside by apply teardown_oplike.
      repeat split; auto.
      + apply adj_app; auto using teardown_adj.
      + intros Hn. rewrite existsb_app, teardown_noadds; auto.
    - destruct cl; injection He as <- <-; simpl; [|repeat split; auto; discriminate].
      rewrite oplike_inside by apply teardown_oplike. repeat split; auto using teardown_adj, teardown_noadds.
  Qed.

  (** A step of the thread itself. *)
  Lemma cons_app_inv A (c : A) K X Y : c :: K = X ++ Y ->
    (X = [] /\ Y = c :: K) \/ exists X', X = c :: X' /\ K = X' ++ Y.
  Proof. destruct X as [|x X]; simpl; intros H; [left; auto|injection H as -> ->; right; eauto]. Qed.

  Definition owner (s : st) (t : nat) : bool := match v_lock s with Some u => u =? t | None => false end.

  Lemma replace_adj c X l : adj (c :: X) = true -> (isT c = false -> adj l = true) ->
    (isT c = true -> l = [] \/ l = [KTryUnsub] \/ l = [KDefer]) -> adj (l ++ X) = true.
  Proof.
    simpl. intros H H1 H2. apply andb_prop in H as [Ha Hx].
    destruct (isT c).
    - destruct (H2 eq_refl) as [-> | [-> | ->]]; simpl; auto; rewrite Hx; destruct X as [|[] X]; auto.
    - apply adj_app; auto.
  Qed.

  Lemma thread_self d t c K s l s1 :
    thread_ok d s (owner s t) (c :: K) -> exec t c s = Some (l, s1) ->
    (0 < cnt fR [c] -> v_closed s = true) ->
    thread_ok d s1 (owner s1 t) (l ++ K).
  Proof.
    intros H He Hr. remember (owner s t) as o eqn:Eo. remember (c :: K) as K0 eqn:EK.
    destruct H as [B Hb Ha | X B Hx Hxa Hxc Hxn Hb Ha | B Hd Hb | X Hd Hx Hxa Hxc Hxn | Hd | Hd Hf Hn | r Hd Hf Hn].
    - (* outside *)
      symmetry in EK. apply cons_app_inv in EK as [[-> EK]|(B' & -> & ->)].
      + (* the drop begins *)
        destruct d; [|discriminate]. injection EK as <- <-. simpl in He. injection He as <- <-. simpl.
        replace (owner (with_log s (VBegin t OLast)) t) with false by exact Eo.
        change [KApply; KGone] with ([KApply] ++ [KGone]). apply tk_drop; auto.
      + simpl in Hb. apply andb_prop in Hb as [Hc Hb].
        destruct (exec_oplike _ _ _ He Hc) as [(E1 & E2 & E3) [(El & Hl & Hla & Hlt & _)|(En & El & X & -> & HX & HXa & HXo & HXd)]]; auto.
        * replace (owner s1 t) with false by (unfold owner in *; rewrite El; exact Eo).
          rewrite app_assoc. apply tk_out; [rewrite forallb_app, Hl, Hb; auto|].
          eapply replace_adj; eauto.
        * replace (owner s1 t) with true by (unfold owner; rewrite El, Nat.eqb_refl; auto).
          rewrite <- app_assoc. simpl. apply tk_in; auto; try (rewrite HXo; discriminate).
          simpl in Ha. apply andb_prop in Ha as [_ Ha]; auto.
    - (* with the mutex *)
      symmetry in EK. apply cons_app_inv in EK as [[-> EK]|(X' & -> & ->)].
      + injection EK as <- <-. simpl in He. injection He as <- <-. simpl.
        replace (owner _ t) with false by reflexivity. apply tk_out; auto.
      + simpl in Hx. apply andb_prop in Hx as [Hc Hx]. simpl in Hxa. simpl in Hxc. simpl in Hxn.
        assert (Hxa' : adj X' = true) by (apply andb_prop in Hxa as [_ ?]; auto).
        assert (Ow : v_lock s <> None) by (intros E; unfold owner in Eo; rewrite E in Eo; discriminate).
        destruct (oplike c) eqn:Eoc.
        * destruct (exec_oplike _ _ _ He Eoc) as [(E1 & E2 & E3) [(El & Hl & Hla & Hlt & Hln)|(En & _)]]; auto; [|contradiction].
          replace (owner s1 t) with true by (unfold owner in *; rewrite El; exact Eo).
          rewrite app_assoc. apply tk_in; auto.
          -- rewrite forallb_app, Hx, oplike_inside; auto.
          -- eapply replace_adj; eauto.
          -- rewrite E1; auto.
          -- intros Hn. specialize (Hxn Hn). apply orb_false_iff in Hxn as [Hn1 Hn2]. rewrite existsb_app, Hln, Hn2; auto.
        * assert (Hi : inner c = true) by (unfold inside in Hc; rewrite Eoc in Hc; auto).
          destruct (exec_inner _ _ _ He Hi Hr) as (El & E2 & E1 & Hl & Hla & Hlo & Hln).
          replace (owner s1 t) with true by (unfold owner in *; rewrite El; exact Eo).
          rewrite app_assoc. apply tk_in; auto.
          -- rewrite forallb_app, Hx, Hl; auto.
          -- apply adj_app; auto.
          -- rewrite existsb_app. intros H. apply orb_prop in H as [H|H]; auto.
          -- intros Hn. specialize (Hxn Hn). apply orb_false_iff in Hxn as [Hn1 Hn2]. rewrite existsb_app, Hln, Hn2; auto.
    - (* dropping *)
      destruct Hb as [-> | [-> | ->]]; simpl in EK; injection EK as <- <-; simpl in He.
      + injection He as <- <-. replace (owner s t) with false by auto.
        destruct (v_queue s =? 0); [apply tk_drop with (B := [])|apply tk_drop with (B := [KApplyLock])]; auto.
      + destruct (v_lock s) eqn:El; injection He as <- <-.
        * replace (owner s t) with false by auto. apply tk_drop with (B := []); auto.
        * replace (owner _ t) with true by (unfold owner; simpl; rewrite Nat.eqb_refl; auto).
          change ([KQueue 0; KUnlock] ++ [KGone]) with ([KQueue 0] ++ [KUnlock; KGone]).
          apply tk_drop_in; auto; try discriminate.
      + destruct (freed body _) eqn:Ef; injection He as <- <-.
        * unfold freed in Ef. apply andb_prop in Ef as [Ef1 Ef2]. apply Nat.eqb_eq in Ef1. apply negb_true_iff in Ef2.
          replace (owner _ t) with false by (destruct (v_queue s =? 0); auto).
          simpl. apply tk_data; auto; destruct (v_queue s =? 0); auto.
        * replace (owner _ t) with false by auto. apply tk_dead; auto.
    - (* dropping, with the mutex *)
      symmetry in EK. apply cons_app_inv in EK as [[-> EK]|(X' & -> & ->)].
      + injection EK as <- <-. simpl in He. injection He as <- <-. simpl.
        replace (owner _ t) with false by reflexivity. apply tk_drop with (B := []); auto.
      + simpl in Hx. apply andb_prop in Hx as [Hc Hx]. simpl in Hxa. simpl in Hxc. simpl in Hxn.
        assert (Hxa' : adj X' = true) by (apply andb_prop in Hxa as [_ ?]; auto).
        assert (Ow : v_lock s <> None) by (intros E; unfold owner in Eo; rewrite E in Eo; discriminate).
        destruct (oplike c) eqn:Eoc.
        * destruct (exec_oplike _ _ _ He Eoc) as [(E1 & E2 & E3) [(El & Hl & Hla & Hlt & Hln)|(En & _)]]; auto; [|contradiction].
          replace (owner s1 t) with true by (unfold owner in *; rewrite El; exact Eo).
          rewrite app_assoc. apply tk_drop_in; auto.
          -- rewrite forallb_app, Hx, oplike_inside; auto.
          -- eapply replace_adj; eauto.
          -- rewrite E1; auto.
          -- intros Hn. specialize (Hxn Hn). apply orb_false_iff in Hxn as [Hn1 Hn2]. rewrite existsb_app, Hln, Hn2; auto.
        * assert (Hi : inner c = true) by (unfold inside in Hc; rewrite Eoc in Hc; auto).
          destruct (exec_inner _ _ _ He Hi Hr) as (El & E2 & E1 & Hl & Hla & Hlo & Hln).
          replace (owner s1 t) with true by (unfold owner in *; rewrite El; exact Eo).
          rewrite app_assoc. apply tk_drop_in; auto.
          -- rewrite forallb_app, Hx, Hl; auto.
          -- apply adj_app; auto.
          -- rewrite existsb_app. intros H. apply orb_prop in H as [H|H]; auto.
          -- intros Hn. specialize (Hxn Hn). apply orb_false_iff in Hxn as [Hn1 Hn2]. rewrite existsb_app, Hln, Hn2; auto.
    - discriminate.
    - injection EK as <- <-. simpl in He. destruct (v_closed s); injection He as <- <-.
      + replace (owner s t) with false by auto. apply tk_dead; auto.
      + replace (owner _ t) with false by auto. simpl. apply tk_run; auto.
    - injection EK as <- <-. simpl in He. destruct r as [|n r]; injection He as <- <-.
      + replace (owner s t) with false by auto. apply tk_dead; auto.
      + simpl in Hn. apply orb_false_iff in Hn as [Hn1 Hn2].
        rewrite teardown_nocap by auto. replace (owner _ t) with false by auto. apply tk_run; auto.
  Qed.

  (** The clones. *)
  Definition fL c := match c with KOp OLast | KGone => 1 | _ => 0 end.
  Lemma oplike_fL l : forallb inside l = true -> cnt fL l = 0.
  Proof.
    induction l as [|c l IH]; auto. cbn [forallb]. intros H. apply andb_prop in H as [H1 H2]. rewrite cnt_cons, IH by auto.
    destruct c; auto; try discriminate. destruct o; auto; discriminate.
  Qed.
  Lemma exec_fL t c s l s1 : exec t c s = Some (l, s1) -> forall m,
    v_refs s = fL c + m -> v_refs s1 = cnt fL l + m.
  Proof.
    intros He m Hm.
    destruct (oplike c) eqn:Eo.
    { destruct (exec_oplike _ _ _ He Eo) as [(E1 & E2 & E3) [(El & Hl & _)|(En & El & X & -> & HX & _)]]; rewrite E2, Hm.
      - rewrite oplike_fL by auto using oplike_inside. f_equal. destruct c; auto; try discriminate. destruct o; auto; discriminate.
      - rewrite cnt_app, oplike_fL by auto. rewrite cnt_cons, cnt_nil. simpl. destruct c; auto; try discriminate. destruct o; auto; discriminate. }
    destruct (inner c) eqn:Ei.
    { assert (F : fL c = 0) by (destruct c; try discriminate; auto). rewrite F in Hm. simpl in Hm.
      destruct s as [lk cl fi ob fl q rf pa di lg th0].
      destruct c as [o| | |d|k| | | | | |r|n|n| | |]; simpl in *; try discriminate.
      - destruct (d =? 10); [|destruct (q =? 0)]; injection He as <- <-; auto.
      - destruct k; [|destruct fl]; injection He as <- <-; auto.
      - injection He as <- <-; auto.
      - destruct cl; injection He as <- <-; auto.
      - destruct r; injection He as <- <-; auto. rewrite cnt_app, oplike_fL; auto using oplike_inside, teardown_oplike.
      - destruct cl; injection He as <- <-; auto. rewrite oplike_fL; auto using oplike_inside, teardown_oplike. }
    destruct c; try discriminate; simpl in *.
    - destruct o; try discriminate. injection He as <- <-. auto.
    - injection He as <- <-; auto.
    - assert (v_refs s - 1 = m) by lia. destruct (freed _ _); injection He as <- <-; [destruct (v_queue s =? 0)|]; simpl; auto.
  Qed.

  Variable ds : list bool.   (* which threads drop their clone *)
  Definition keepers : nat := length (filter negb ds).

  Record Sh (s : st) : Prop := {
    h_len : length (v_thr s) = length ds;
    h_own : forall u, v_lock s = Some u -> u < length (v_thr s);
    h_refs : v_refs s = cnt fL (all s) + keepers;
    h_thr : forall t d K, nth_error ds t = Some d -> nth_error (v_thr s) t = Some K -> thread_ok d s (owner s t) K
  }.

  Definition wf (d : bool) (p : list op) : Prop :=
    exists q, ~ In OLast q /\ p = q ++ (if d then [OLast] else []).

  Lemma ops_ok q : ~ In OLast q -> forallb oplike (map KOp q) = true /\ adj (map KOp q) = true.
  Proof.
    induction q as [|o q IH]; auto. simpl. intros H. destruct IH as [H1 H2]; [tauto|]. rewrite H1, H2.
    destruct o; auto; tauto.
  Qed.

  Lemma Sh_init progs : Forall2 wf ds progs -> Sh (init progs).
  Proof.
    intros F. constructor; simpl.
    - rewrite map_length. induction F; simpl; auto.
    - discriminate.
    - unfold all, keepers; simpl. induction F as [|d p ds' ps' Hw F IH]; auto. simpl. rewrite cnt_app, IH.
      destruct Hw as (q & Hq & ->). rewrite map_app, cnt_app. rewrite (oplike_fL (map KOp q)) by (apply oplike_inside, ops_ok, Hq).
      destruct d; simpl; rewrite ?cnt_cons, ?cnt_nil; simpl; lia.
    - intros t d K Hd HK. unfold owner; simpl.
      assert (Hw : exists p, wf d p /\ K = map KOp p).
      { revert t d K Hd HK. induction F as [|d0 p ds' ps' Hw F IH]; intros [|t] d K Hd HK; simpl in *; try discriminate; eauto.
        injection Hd as <-. injection HK as <-. eauto. }
      destruct Hw as (p & (q & Hq & ->) & ->). rewrite map_app. destruct (ops_ok q Hq).
      replace (map KOp (if d then [OLast] else [])) with (if d then [KOp OLast] else []) by (destruct d; auto).
      apply tk_out; auto.
  Qed.

  Lemma exec_mono t c s l s1 : exec t c s = Some (l, s1) ->
    (v_closed s = true -> v_closed s1 = true) /\ v_refs s1 <= v_refs s.
  Proof.
    intros He. destruct s as [lk cl fi ob fl q rf pa di lg th0].
    destruct c as [o| | |d|k| | | | | |r|n|n| | |]; simpl in *.
    - destruct o; [| |destruct (fl || ob)| |]; injection He as <- <-; auto.
    - injection He as <- <-; auto.
    - destruct lk; injection He as <- <-; auto.
    - destruct (d =? 10); [|destruct (q =? 0)]; injection He as <- <-; auto.
    - destruct k; [|destruct fl]; injection He as <- <-; auto.
    - injection He as <- <-; auto.
    - injection He as <- <-; auto.
    - destruct lk; injection He as <- <-; auto.
    - destruct fl; injection He as <- <-; auto.
    - destruct cl; injection He as <- <-; auto.
    - destruct r; injection He as <- <-; auto.
    - destruct lk; [discriminate|]; injection He as <- <-; auto.
    - destruct cl; injection He as <- <-; simpl; split; auto; discriminate.
    - destruct lk; injection He as <- <-; auto.
    - injection He as <- <-; auto.
    - destruct (freed _ _); injection He as <- <-; [destruct (q =? 0)|]; simpl; split; auto; lia.
  Qed.

  (** A thread that has neither a clone nor one to be dropped is done, but for the drain. *)
  Lemma dead_shape d s o K : thread_ok d s o K -> d = true -> cnt fL K = 0 ->
    o = false /\ (K = [] \/ (v_refs s = 0 /\ (K = [KData] \/ exists l, K = [KRun l]))).
  Proof.
    intros H -> Hc. destruct H; rewrite ?cnt_app, ?cnt_cons, ?cnt_nil in Hc; simpl in Hc; try lia; eauto 7.
    all: rewrite ?cnt_app, ?cnt_cons, ?cnt_nil in Hc; simpl in Hc; lia.
  Qed.

  (** When all clones are gone nothing is added. *)
  Lemma refs_zero s : Sh s -> v_refs s = 0 -> forall t d K,
    nth_error ds t = Some d -> nth_error (v_thr s) t = Some K ->
    d = true /\ owner s t = false /\ (K = [] \/ K = [KData] \/ exists l, K = [KRun l]).
  Proof.
    intros [Hl Ho Hr Ht] H0 t d K Hd HK. rewrite Hr in H0.
    assert (d = true).
    { destruct d; auto. exfalso. assert (0 < keepers); [|lia]. unfold keepers.
      apply nth_error_In in Hd. assert (In false (filter negb ds)) by (apply filter_In; auto).
      destruct (filter negb ds); simpl in *; [contradiction|lia]. }
    subst d. assert (Hc : cnt fL K = 0).
    { destruct (split_nth _ _ HK) as [E _]. unfold all in H0. rewrite E, concat_app, cnt_app in H0. simpl in H0.
      rewrite cnt_app in H0. lia. }
    destruct (dead_shape (Ht _ _ _ Hd HK) eq_refl Hc) as [H1 H2]. repeat split; auto. tauto.
  Qed.

  Lemma nth_error_mid A (a b : list A) x t : length a = t -> nth_error (a ++ x :: b) t = Some x.
  Proof. intros <-. rewrite nth_error_app2, Nat.sub_diag by lia. auto. Qed.
  Lemma nth_error_other A (a b : list A) x y t u : length a = t -> u <> t ->
    nth_error (a ++ x :: b) u = nth_error (a ++ y :: b) u.
  Proof.
    intros <- H. destruct (Nat.lt_ge_cases u (length a)).
    - rewrite !nth_error_app1; auto.
    - rewrite !nth_error_app2 by auto. replace (u - length a) with (S (u - length a - 1)) by lia. auto.
  Qed.

  Lemma thread_ext d s s' o K : v_closed s' = v_closed s -> v_refs s' = v_refs s -> v_fins s' = v_fins s ->
    thread_ok d s o K -> thread_ok d s' o K.
  Proof. intros E1 E2 E3 H. destruct H; constructor; auto; rewrite ?E1, ?E2, ?E3; auto. Qed.

  Lemma lock_trans t c s l s1 : exec t c s = Some (l, s1) ->
    v_lock s1 = v_lock s \/ (v_lock s = None /\ v_lock s1 = Some t) \/ (c = KUnlock /\ v_lock s1 = None).
  Proof.
    intros He. destruct s as [lk cl fi ob fl q rf pa di lg th0].
    destruct c as [o| | |d|k| | | | | |r|n|n| | |]; simpl in *.
    - destruct o; [| |destruct (fl || ob)| |]; injection He as <- <-; auto.
    - injection He as <- <-; auto.
    - destruct lk; injection He as <- <-; auto.
    - destruct (d =? 10); [|destruct (q =? 0)]; injection He as <- <-; auto.
    - destruct k; [|destruct fl]; injection He as <- <-; auto.
    - injection He as <- <-; auto.
    - injection He as <- <-; auto.
    - destruct lk; injection He as <- <-; auto.
    - destruct fl; injection He as <- <-; auto.
    - destruct cl; injection He as <- <-; auto.
    - destruct r; injection He as <- <-; auto.
    - destruct lk; [discriminate|]; injection He as <- <-; auto.
    - destruct cl; injection He as <- <-; auto.
    - destruct lk; injection He as <- <-; auto.
    - injection He as <- <-; auto.
    - destruct (freed _ _); injection He as <- <-; [destruct (q =? 0)|]; simpl; auto.
  Qed.

  Lemma top_owner d s o K : thread_ok d s o (KUnlock :: K) -> o = true.
  Proof.
    intros H. remember (KUnlock :: K) as K0 eqn:E. destruct H as [B Hb _|X B Hb| |X| | |]; auto; try discriminate.
    - destruct B as [|b B]; simpl in E; [destruct d; discriminate|]. injection E as E _; subst b; discriminate.
    - destruct H0 as [-> | [-> | ->]]; discriminate.
  Qed.

  Lemma Sh_step t s s' : Inv s -> Sh s -> step t s = Some s' -> Sh s'.
  Proof.
    intros I S H. apply step_inv in H as (a & b & c & K & l & s1 & Hthr & Hlen & He & ->).
    pose proof (@refs_zero s S) as RZ.
    destruct S as [Hl Ho Hr Ht].
    assert (Hd : exists d, nth_error ds t = Some d).
    { destruct (nth_error ds t) eqn:E; eauto. apply nth_error_None in E. rewrite <- Hl, Hthr, app_length in E. simpl in E. lia. }
    destruct Hd as [d Hd].
    assert (HK : nth_error (v_thr s) t = Some (c :: K)) by (rewrite Hthr; apply nth_error_mid; auto).
    assert (Hself : thread_ok d s (owner s t) (c :: K)) by eauto.
    assert (Hrun : 0 < cnt fR [c] -> v_closed s = true).
    { intros Hc. pose proof (i9 I) as I9. unfold all in I9. rewrite Hthr, concat_app, cnt_app in I9. simpl in I9.
      rewrite cnt_cons in I9. rewrite cnt_cons, cnt_nil in Hc. destruct (v_closed s); auto. lia. }
    assert (Hown : forall u, u <> t -> owner s1 u = owner s u).
    { intros u Hu. unfold owner. destruct (lock_trans _ _ _ He) as [E|[[E1 E2]|[-> E]]].
      - rewrite E; auto.
      - rewrite E1, E2. apply Nat.eqb_neq; auto.
      - rewrite E. apply top_owner in Hself. unfold owner in Hself. destruct (v_lock s) as [v|]; auto.
        apply Nat.eqb_eq in Hself as ->. symmetry. apply Nat.eqb_neq; auto. }
    destruct (exec_mono _ _ _ He) as [Mc Mr].
    constructor; simpl.
    - rewrite <- Hl, Hthr, !app_length. auto.
    - intros u Hu. rewrite app_length. simpl. rewrite Hthr, app_length in Ho. simpl in Ho.
      destruct (lock_trans _ _ _ He) as [E|[[E1 E2]|[-> E]]].
      + apply Ho. rewrite <- E; auto.
      + rewrite E2 in Hu. injection Hu as <-. lia.
      + congruence.
    - unfold all in *. simpl. rewrite concat_app. rewrite Hthr, concat_app in Hr. simpl in *. rewrite !cnt_app in *. rewrite cnt_cons, cnt_app in Hr.
      rewrite (exec_fL _ _ _ He (cnt fL (concat a) + (cnt fL K + cnt fL (concat b)) + keepers)) by lia. lia.
    - intros u du Ku Hdu HKu. destruct (Nat.eq_dec u t) as [->|Hu].
      + rewrite nth_error_mid in HKu by auto. injection HKu as <-. rewrite Hd in Hdu. injection Hdu as <-.
        change (owner (with_thr s1 (a ++ (l ++ K) :: b)) t) with (owner s1 t). eapply thread_ext with (s := s1); eauto. eapply thread_self; eauto.
      + rewrite (nth_error_other a b _ (c :: K) (t := t)) in HKu by auto. rewrite <- Hthr in HKu.
        pose proof (Ht _ _ _ Hdu HKu) as Hk. unfold owner at 1. simpl. fold (owner s1 u). rewrite Hown by auto.
        apply thread_ext with (s := s1); auto.
        revert Hk. intros Hk. destruct Hk; try (constructor; auto; fail).
        * (* [KData] *) assert (R : v_refs s1 = 0) by lia. apply tk_data; auto.
          destruct (RZ H0 _ _ _ Hd HK) as (_ & _ & [E|[E|[r E]]]); try discriminate; injection E as -> ->; simpl in He.
          -- destruct (v_closed s); injection He as <- <-; auto.
          -- destruct r; injection He as <- <-; auto.
        * apply tk_run; auto. lia.
  Qed.
End Shape.
