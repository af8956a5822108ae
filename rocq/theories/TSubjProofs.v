(** Proofs about the subject of the tests (TSubjModel.v). *)
From Verif Require Import Base SubscrModel TSubjModel.
Set Implicit Arguments.

Section Alone.
  Context {X I E : Type}.
  Variable D : subscriber X I E.
  Notation entry := (session D * list (ev X))%type.

  Definition one (o : sop I E) (e : entry) : entry :=
    let '(s1, w1) := sdo o (fst e) in (s1, snd e ++ w1).
  Fixpoint alone (os : list (sop I E)) (e : entry) : entry :=
    match os with [] => e | o :: r => alone r (one o e) end.

  (** What happens to the [i]-th of [n] subscriptions in a history. *)
  Fixpoint share (i n : nat) (alive : bool) (ops : list (wop D)) : list (sop I E) :=
    match ops with
    | [] => []
    | o :: r =>
        match o with
        | WSubscribe _ _ => (if alive && (S i =? n) then [SLet] else []) ++ share i (if alive then S n else n) alive r
        | WCall _ c => (if alive && (S i =? n) then [SNote c] else []) ++ share i n alive r
        | WIsClosed _ => share i n alive r
        | WEnd _ => (if alive && (S i =? n) then [SLet] else []) ++ share i n false r
        | WUnsub _ j => (if i =? j then [SUns] else []) ++ share i n alive r
        | WAdd _ j t => (if i =? j then [SAdd t] else []) ++ share i n alive r
        | WDropSub _ j => (if i =? j then [SDrop] else []) ++ share i n alive r
        end
    end.

  Lemma alone_app : forall a b e, alone (a ++ b) e = alone b (alone a e).
  Proof. induction a; intros; cbn; auto. Qed.
  Lemma change_length : forall (l : list entry) i o, length (change i o l) = length l.
  Proof. induction l as [|[s w] l IH]; intros [|i] o; cbn; auto; destruct (sdo o s); cbn; auto. Qed.
  Lemma change_last_length : forall (l : list entry) o, length (change_last o l) = length l.
  Proof. intros l o. unfold change_last. destruct (length l) eqn:H; auto. rewrite change_length; auto. Qed.
  Lemma change_nth : forall (l : list entry) i j o e, nth_error l i = Some e ->
    nth_error (change j o l) i = Some (if i =? j then one o e else e).
  Proof.
    induction l as [|[s w] l IH]; intros i j o e H; destruct i; try discriminate.
    - cbn in H. inversion H; subst. destruct j; cbn; auto. unfold one. cbn [fst snd]. destruct (sdo o s); auto.
    - destruct j; cbn in *.
      + destruct (sdo o s); cbn; auto.
      + auto.
  Qed.
  Lemma change_last_nth : forall (l : list entry) i o e, nth_error l i = Some e ->
    nth_error (change_last o l) i = Some (if S i =? length l then one o e else e).
  Proof.
    intros l i o e H. unfold change_last. destruct (length l) as [|k] eqn:L.
    - destruct l; [destruct i|]; discriminate.
    - rewrite (change_nth _ _ _ _ H). cbn. auto.
  Qed.

  Lemma exec_alone : forall ops (w : world D) i e, nth_error (w_sessions w) i = Some e ->
    nth_error (w_sessions (wexec ops w)) i = Some (alone (share i (length (w_sessions w)) (w_alive w) ops) e).
  Proof.
    induction ops as [|o ops IH]; intros [l al] i e H; cbn [w_sessions w_alive] in *; auto.
    cbn [wexec]. destruct o as [d|c| | |j|j t|j]; cbn [wdo share w_sessions w_alive fst].
    - destruct al; cbn [fst andb].
      + rewrite alone_app.
        erewrite IH; cbn [w_sessions w_alive].
        2:{ rewrite nth_error_app1; [apply change_last_nth, H|].
            rewrite change_last_length. apply nth_error_Some. congruence. }
        rewrite app_length, change_last_length. cbn [length]. rewrite Nat.add_1_r.
        destruct (S i =? length l); auto.
      + cbn [app]. apply (IH (mkWorld l false)); auto.
    - destruct al; cbn [fst andb].
      + destruct l as [|x l]; [destruct i; discriminate|]. cbn [fst]. rewrite alone_app.
        erewrite IH; cbn [w_sessions w_alive]. 2:{ apply change_last_nth, H. }
        rewrite change_last_length. destruct (S i =? length (x :: l)); auto.
      + cbn [app]. apply (IH (mkWorld l false)); auto.
    - destruct al; [|apply (IH (mkWorld l false)); auto].
      destruct (rev l) as [|[s w] q]; apply (IH (mkWorld l true)); auto.
    - destruct al; cbn [fst andb].
      + rewrite alone_app. erewrite IH; cbn [w_sessions w_alive]. 2:{ apply change_last_nth, H. }
        rewrite change_last_length. destruct (S i =? length l); auto.
      + cbn [app]. apply (IH (mkWorld l false)); auto.
    - rewrite alone_app. erewrite IH; cbn [w_sessions w_alive]. 2:{ apply change_nth, H. }
      rewrite change_length. destruct (i =? j); auto.
    - rewrite alone_app. erewrite IH; cbn [w_sessions w_alive]. 2:{ apply change_nth, H. }
      rewrite change_length. destruct (i =? j); auto.
    - rewrite alone_app. erewrite IH; cbn [w_sessions w_alive]. 2:{ apply change_nth, H. }
      rewrite change_length. destruct (i =? j); auto.
  Qed.

  Lemma exec_app : forall a b (w : world D), wexec (a ++ b) w = wexec b (wexec a w).
  Proof. induction a; intros; cbn; auto. Qed.

  (** A subscription made after [a]. *)
  Theorem made_alone : forall a d b, let w := wexec a (new_subject D) in w_alive w = true ->
    nth_error (w_sessions (wexec (a ++ WSubscribe D d :: b) (new_subject D))) (length (w_sessions w)) =
    Some (alone (share (length (w_sessions w)) (S (length (w_sessions w))) true b) (mkSession D false false d true true, [])).
  Proof.
    intros a d b w A. rewrite exec_app. fold w. cbn [wexec wdo]. rewrite A. cbn [fst].
    erewrite exec_alone; cbn [w_sessions w_alive].
    2:{ rewrite nth_error_app2; rewrite change_last_length; [rewrite Nat.sub_diag; reflexivity|auto]. }
    rewrite app_length, change_last_length. cbn [length]. rewrite Nat.add_1_r. reflexivity.
  Qed.

  (** Nothing is done to one that is not the last, unless through its subscription. *)
  Definition by_others (i : nat) (o : wop D) : Prop :=
    match o with WUnsub _ j | WAdd _ j _ | WDropSub _ j => j <> i | _ => True end.
  Lemma share_none : forall ops i n al, S i < n -> Forall (by_others i) ops -> share i n al ops = [].
  Proof.
    induction ops as [|o ops IH]; intros i n al L F; auto.
    inversion F; subst. assert (Q : S i =? n = false) by (apply Nat.eqb_neq; lia).
    destruct o; cbn [share by_others] in *; try rewrite Q, andb_false_r; cbn [app];
      try (replace (i =? i0) with false by (symmetry; apply Nat.eqb_neq; auto); cbn [app]);
      apply IH; auto; destruct al; lia.
  Qed.
  Theorem passed_over : forall (w : world D) i e ops, nth_error (w_sessions w) i = Some e ->
    S i < length (w_sessions w) -> Forall (by_others i) ops ->
    nth_error (w_sessions (wexec ops w)) i = Some e.
  Proof. intros w i e ops H L F. rewrite (exec_alone _ _ _ H), share_none; auto. Qed.
End Alone.
