(** What the subject of the tests calls on a destination (TSubjModel.v). *)
From Verif Require Import Base SubscrModel OpsModel OpsQuiet TSubjModel TSubjProofs.
Set Implicit Arguments.

Section Calls.
  Context {X I E : Type}.
  Variable D : subscriber X I E.

  Definition notes (cs : list (call I E)) : list (ncall I E) := flat_map (fun c => match c with CN n => [n] | _ => [] end) cs.
  Definition is_drop (c : call I E) : bool := match c with CDrop => true | _ => false end.

  Lemma run_from_snoc : forall cs (d : st D) c,
    run_from D d (cs ++ [c]) = (fst (step D (fst (run_from D d cs)) c), snd (run_from D d cs) ++ snd (step D (fst (run_from D d cs)) c)).
  Proof.
    induction cs as [|a cs IH]; intros d c; cbn [run_from app].
    - destruct (step D d c) eqn:Q. cbn [fst snd app]. rewrite Q. cbn. rewrite app_nil_r. auto.
    - destruct (step D d a) as [d1 w1]. rewrite IH. destruct (run_from D d1 cs) as [d2 w2]. cbn [fst snd]. rewrite app_assoc. auto.
  Qed.
  Lemma heeds_snoc : forall cs (d : st D) c, heeds D d cs ->
    match c with CN Uns | CAdd _ | CDrop => True | CN _ => closed D (fst (run_from D d cs)) = false end -> heeds D d (cs ++ [c]).
  Proof.
    induction cs as [|a cs IH]; intros d c H K; cbn [heeds app run_from] in *.
    - split; auto.
    - destruct H as [H1 H2]. split; auto. apply IH; auto.
      destruct (step D d a) as [d1 w1]. cbn [fst] in *. destruct (run_from D d1 cs). auto.
  Qed.
  Lemma notes_app : forall a b, notes (a ++ b) = notes a ++ notes b.
  Proof. intros. unfold notes. apply flat_map_app. Qed.
  Lemma orderly_uns : forall l : list (ncall I E), orderly l -> orderly (l ++ [Uns]).
  Proof.
    intros l H l1 n l2 Q N. destruct (exists_last (l := n :: l2)) as [m [x Hx]]; [discriminate|].
    rewrite Hx, app_assoc in Q. apply app_inj_tail in Q as [Q <-].
    destruct m as [|y m]; cbn in Hx; inversion Hx; subst; auto.
    apply Forall_app. split; auto. apply (H l1 y m); auto.
  Qed.
  Lemma orderly_open : forall (l : list (ncall I E)) n, Forall (fun m => is_next m = true) l -> orderly (l ++ [n]).
  Proof.
    intros l n H l1 x l2 Q N. destruct (exists_last (l := x :: l2)) as [m [y Hx]]; [discriminate|].
    rewrite Hx, app_assoc in Q. apply app_inj_tail in Q as [Q <-].
    destruct m as [|z m]; cbn in Hx; inversion Hx; subst; auto.
    apply Forall_app in H as [_ H]. inversion H; subst. congruence.
  Qed.

  (** No notification at all is told to a destination that is closed. *)
  Definition attends (d : st D) (cs : list (call I E)) : Prop :=
    forall q n r, cs = q ++ CN n :: r -> closed D (fst (run_from D d q)) = false.
  Lemma attends_snoc : forall cs (d : st D) c, attends d cs ->
    match c with CN _ => closed D (fst (run_from D d cs)) = false | _ => True end -> attends d (cs ++ [c]).
  Proof.
    intros cs d c H K q n r Q. destruct (exists_last (l := CN n :: r)) as [m [x Hx]]; [discriminate|].
    rewrite Hx, app_assoc in Q. apply app_inj_tail in Q as [Q ->].
    destruct m as [|y m]; cbn in Hx; inversion Hx; subst.
    - rewrite app_nil_r in K. auto.
    - apply (H q n m). auto.
  Qed.

  (** The calls made so far. *)
  Definition held (s : session D) : bool := s_subj s || s_user s.
  Definition Inv (d : st D) (e : session D * list (ev X)) (cs : list (call I E)) : Prop :=
    run_from D d cs = (s_dst (fst e), snd e) /\ (heeds D d cs /\ attends d cs /\
      (s_ended (fst e) || s_unsub (fst e) = true -> existsb (fun m => negb (is_next m)) (notes cs) = true \/
         exists q r, cs = q ++ r /\ closed D (fst (run_from D d q)) = true)) /\ orderly (notes cs) /\
    (s_ended (fst e) || s_unsub (fst e) = false -> held (fst e) = true -> Forall (fun m => is_next m = true) (notes cs)) /\
    (if held (fst e) then filter is_drop cs = [] else exists l, cs = l ++ [CDrop] /\ filter is_drop l = [] /\
       (closed D (fst (run_from D d l)) = true \/ exists k, l = k ++ [CN Uns])).

  Definition kept (d : st D) (e : session D * list (ev X)) : Prop := exists cs, Inv d e cs.

  (** A call on the destination that is not its drop, while a clone is left. *)
  Lemma inv_call : forall d s w cs c en un, Inv d (s, w) cs -> held s = true -> is_drop c = false ->
    match c with CN _ => closed D (s_dst s) = false | _ => True end ->
    (en || un = true -> s_ended s || s_unsub s = true \/ exists n, c = CN n /\ is_next n = false) ->
    (forall n, c = CN n -> n = Uns \/ s_ended s || s_unsub s = false) ->
    (en || un = false -> s_ended s || s_unsub s = false /\ forall n, c = CN n -> is_next n = true) ->
    Inv d (mkSession D en un (fst (step D (s_dst s) c)) (s_subj s) (s_user s), w ++ snd (step D (s_dst s) c)) (cs ++ [c]).
  Proof.
    intros d s w cs c en un (R & (H & T & V) & O & A & F) L Q K W N B. cbn [fst snd] in *. unfold held in *. unfold Inv, held. cbn [fst snd s_dst s_ended s_unsub s_subj s_user].
    rewrite L in *. split; [|split; [|split; [|split]]].
    - rewrite run_from_snoc, R. auto.
    - split; [apply heeds_snoc; auto; rewrite R; destruct c as [[]| |]; auto|]. split; [apply attends_snoc; auto; rewrite R; auto|].
      intros Z. destruct (W Z) as [Y|[n [-> Y]]].
      + destruct (V Y) as [U|[q [r [U1 U2]]]].
        * left. rewrite notes_app, existsb_app, U. auto.
        * right. exists q, (r ++ [c]). subst. rewrite app_assoc. auto.
      + left. rewrite notes_app, existsb_app. cbn. rewrite Y. cbn. rewrite orb_true_r. auto.
    - rewrite notes_app. destruct c as [n|t|]; cbn [notes flat_map app]; try rewrite app_nil_r; auto.
      destruct (N n eq_refl) as [->|Z]; [apply orderly_uns|apply orderly_open]; auto.
    - intros Z _. destruct (B Z) as [Z1 Z2]. rewrite notes_app. apply Forall_app. split; auto.
      destruct c as [n|t|]; cbn; auto.
    - rewrite filter_app, F. cbn. rewrite Q. auto.
  Qed.

  (** Flags may only be raised. *)
  Lemma inv_flags : forall d s w cs en un, Inv d (s, w) cs ->
    (en || un = false -> s_ended s || s_unsub s = false) -> closed D (s_dst s) = true ->
    Inv d (mkSession D en un (s_dst s) (s_subj s) (s_user s), w) cs.
  Proof. 
    intros d s w cs en un (R & (H & T & V) & O & A & F) Z C. unfold Inv, held in *. cbn [fst snd s_dst s_ended s_unsub s_subj s_user] in *.
    split; auto. split; [|split; auto]. split; auto. split; auto. intros _. right. exists cs, []. rewrite app_nil_r, R. auto.
  Qed.

  Lemma kept_on_dst : forall d s w c en un, kept d (s, w) -> held s = true -> is_drop c = false ->
    match c with CN _ => closed D (s_dst s) = false | _ => True end ->
    (en || un = true -> s_ended s || s_unsub s = true \/ exists n, c = CN n /\ is_next n = false) ->
    (forall n, c = CN n -> n = Uns \/ s_ended s || s_unsub s = false) ->
    (en || un = false -> s_ended s || s_unsub s = false /\ forall n, c = CN n -> is_next n = true) ->
    let r := on_dst c (mkSession D en un (s_dst s) (s_subj s) (s_user s)) in kept d (fst r, w ++ snd r).
  Proof.
    intros d s w c en un [cs H] L Q K W N B. unfold on_dst. cbn [s_dst s_ended s_unsub s_subj s_user].
    pose proof (@inv_call d s w cs c en un H L Q K W N B) as G. destruct (step D (s_dst s) c) as [d1 w1]. cbn [fst snd] in *. eexists; eauto.
  Qed.

  Lemma session_eta : forall s : session D, mkSession D (s_ended s) (s_unsub s) (s_dst s) (s_subj s) (s_user s) = s.
  Proof. destruct s; auto. Qed.

  Lemma kept_note : forall d s w n, kept d (s, w) -> held s = true -> kept d (fst (note n s), w ++ snd (note n s)).
  Proof.
    intros d s w n K L. assert (Z : kept d (s, w ++ [])) by (rewrite app_nil_r; auto).
    destruct n as [i|e| |]; unfold note.
    - destruct (is_closed s) eqn:C; [exact Z|]. unfold is_closed in C. apply orb_false_iff in C as [C1 C2].
      rewrite <- (session_eta s) at 1 2. apply kept_on_dst; auto. intros Y. split; auto. intros n Q. inversion Q; auto.
    - destruct (is_closed s) eqn:C; [exact Z|]. unfold is_closed in C. apply orb_false_iff in C as [C1 C2].
      apply kept_on_dst; eauto. discriminate.
    - destruct (is_closed s) eqn:C; [exact Z|]. unfold is_closed in C. apply orb_false_iff in C as [C1 C2].
      apply kept_on_dst; eauto. discriminate.
    - destruct (s_unsub s) eqn:U; [exact Z|]. destruct (closed D (s_dst s)) eqn:C.
      + cbn [fst snd]. rewrite app_nil_r. destruct K as [cs K]. exists cs. apply inv_flags; auto. rewrite orb_true_r. discriminate.
      + apply kept_on_dst; auto.
        * eauto.
        * intros n Q. inversion Q. auto.
        * rewrite orb_true_r. discriminate.
  Qed.

  Lemma note_clones : forall n (s : session D), s_subj (fst (note n s)) = s_subj s /\ s_user (fst (note n s)) = s_user s.
  Proof.
    intros n s. destruct n; unfold note, on_dst; cbn [s_dst s_ended s_unsub s_subj s_user];
      repeat match goal with |- context [if ?b then _ else _] => destruct b end;
      repeat match goal with |- context [step ?A ?b ?c] => destruct (step A b c) end; auto.
  Qed.

  Lemma kept_let_go : forall d s w subj user, kept d (s, w) -> held s = true ->
    kept d (fst (let_go subj user s), w ++ snd (let_go subj user s)).
  Proof.
    intros d s w subj user [cs (R & (H & T & V) & O & A & F)] L. cbn [fst snd] in *. unfold held in *. rewrite L in F.
    unfold let_go. destruct (subj || user) eqn:G.
    - cbn [fst snd]. rewrite app_nil_r. exists cs. unfold Inv, held. cbn [fst snd s_dst s_ended s_unsub s_subj s_user]. rewrite G. intuition.
    - unfold on_dst. cbn [s_dst s_ended s_unsub s_subj s_user]. destruct (closed D (s_dst s)) eqn:C; cbn [s_dst s_ended s_unsub s_subj s_user].
      + destruct (step D (s_dst s) CDrop) as [d1 w1] eqn:Q. cbn [fst snd app]. exists (cs ++ [CDrop]).
        unfold Inv, held. cbn [fst snd s_dst s_ended s_unsub s_subj s_user]. rewrite G. split; [|split; [|split; [|split]]].
        * rewrite run_from_snoc, R. cbn [fst snd]. rewrite Q. auto.
        * split; [apply heeds_snoc; auto|]. split; [apply attends_snoc; auto|].
          intros _. right. exists cs, [CDrop]. rewrite R. auto.
        * rewrite notes_app. cbn. rewrite app_nil_r. auto.
        * discriminate.
        * exists cs. rewrite R. auto.
      + destruct (step D (s_dst s) (CN Uns)) as [d1 w1] eqn:Q. cbn [s_dst s_ended s_unsub s_subj s_user].
        destruct (step D d1 CDrop) as [d2 w2] eqn:Q2. cbn [fst snd]. exists ((cs ++ [CN Uns]) ++ [CDrop]).
        unfold Inv, held. cbn [fst snd s_dst s_ended s_unsub s_subj s_user]. rewrite G. split; [|split; [|split; [|split]]].
        * rewrite run_from_snoc, run_from_snoc, R. cbn [fst snd]. rewrite Q. cbn [fst snd]. rewrite Q2. cbn [fst snd]. rewrite app_assoc. auto.
        * split; [apply heeds_snoc; auto; apply heeds_snoc; auto|].
          split; [apply attends_snoc; auto; apply attends_snoc; auto; rewrite R; auto|].
          intros _. left. rewrite !notes_app, !existsb_app. cbn. rewrite orb_true_r. auto.
        * rewrite !notes_app. cbn. rewrite app_nil_r. apply orderly_uns. auto.
        * discriminate.
        * exists (cs ++ [CN Uns]). rewrite filter_app, F. eauto.
  Qed.

  Lemma kept_one : forall d o e, kept d e -> kept d (one o e).
  Proof.
    intros d o [s w] K. unfold one. cbn [fst snd].
    assert (Z : kept d (s, w ++ [])) by (rewrite app_nil_r; auto).
    assert (G : forall r : session D * list (ev X), kept d (fst r, w ++ snd r) -> kept d (let '(s1, w1) := r in (s1, w ++ w1))) by (intros [? ?]; auto).
    apply G. clear G.
    destruct o as [n| | |t|]; cbn [sdo].
    - destruct (s_subj s) eqn:U; [|exact Z]. apply kept_note; auto. unfold held. rewrite U. auto.
    - destruct (s_subj s) eqn:U; [|exact Z]. apply kept_let_go; auto. unfold held. rewrite U. auto.
    - destruct (s_user s) eqn:U; [|exact Z]. apply kept_note; auto. unfold held. rewrite U, orb_true_r. auto.
    - destruct (s_user s) eqn:U; [|exact Z]. rewrite <- (session_eta s) at 1 2. apply kept_on_dst; auto; try discriminate.
      + unfold held. rewrite U, orb_true_r. auto.
      + intros Y. split; auto. discriminate.
    - destruct (s_user s) eqn:U; [|exact Z].
      assert (L : held s = true) by (unfold held; rewrite U, orb_true_r; auto).
      assert (M : forall r : session D * list (ev X), s_user (fst r) = true -> kept d (fst r, w ++ snd r) ->
                let q := let '(s1, w1) := r in let '(s2, w2) := let_go (s_subj s1) false s1 in (s2, w1 ++ w2) in kept d (fst q, w ++ snd q)).
      { intros [s1 w1] V Y. cbn [fst snd] in *.
        assert (T : held s1 = true) by (unfold held; rewrite V, orb_true_r; auto).
        pose proof (@kept_let_go d s1 (w ++ w1) (s_subj s1) false Y T) as P.
        destruct (let_go (s_subj s1) false s1) as [s2 w2]. cbn [fst snd] in *. rewrite app_assoc. exact P. }
      apply M.
      + destruct (is_closed s); auto. destruct (note_clones Uns s) as [_ ->]. auto.
      + destruct (is_closed s); [exact Z|]. apply kept_note; auto.
  Qed.

  Theorem kept_alone : forall os d, kept d (alone os (mkSession D false false d true true, [])).
  Proof.
    intros os d. assert (K : kept d (mkSession D false false d true true, [])).
    { exists []. unfold Inv. cbn. split; auto. split; [|split; [|auto]].
      - split; auto. split; [|discriminate]. intros q n r Q. destruct q; discriminate.
      - intros l1 n l2 Q. destruct l1; discriminate. }
    revert K. generalize (mkSession D false false d true true, @nil (ev X)). induction os as [|o os IH]; intros e K; cbn; auto.
    apply IH, kept_one, K.
  Qed.

  (** The same of a subscription made after [a]. *)
  Theorem made_calls : forall a d b, let w := wexec a (new_subject D) in w_alive w = true -> exists s l cs,
    nth_error (w_sessions (wexec (a ++ WSubscribe D d :: b) (new_subject D))) (length (w_sessions w)) = Some (s, l) /\
    run_from D d cs = (s_dst s, l) /\
    (forall q n r, cs = q ++ CN n :: r -> closed D (fst (run_from D d q)) = false) /\ heeds D d cs /\ orderly (notes cs) /\
    (if s_subj s || s_user s then filter is_drop cs = []
     else exists q, cs = q ++ [CDrop] /\ filter is_drop q = [] /\ (closed D (fst (run_from D d q)) = true \/ exists k, q = k ++ [CN Uns])) /\
    ((forall x c, closed D x = true -> closed D (fst (step D x c)) = true) -> s_subj s || s_user s = true ->
     is_closed s = closed D (s_dst s) || existsb (fun m => negb (is_next m)) (notes cs)).
  Proof.
    intros a d b w A. pose proof (@made_alone X I E D a d b A) as M. fold w in M.
    destruct (kept_alone (share (D := D) (length (w_sessions w)) (S (length (w_sessions w))) true b) d) as [cs (R & (H & T & V) & O & G & F)].
    destruct (alone _ _) as [s l]. exists s, l, cs. repeat (split; [assumption|]).
    intros Mono L. cbn [fst snd] in *. unfold is_closed. destruct (s_ended s || s_unsub s) eqn:Z; cbn [orb].
    - destruct (V eq_refl) as [->|[q [r [U1 U2]]]]; [rewrite orb_true_r; auto|].
      assert (K : forall r x, closed D x = true -> closed D (fst (run_from D x r)) = true).
      { induction r0 as [|c r0 IH]; intros x Hx; cbn [run_from]; auto. specialize (Mono x c Hx). destruct (step D x c) as [x1 w1].
        cbn [fst] in Mono. specialize (IH _ Mono). destruct (run_from D x1 r0). auto. }
      assert (J : forall q x r, fst (run_from D x (q ++ r)) = fst (run_from D (fst (run_from D x q)) r)).
      { induction q0 as [|c q0 IH]; intros x r0; cbn [run_from app]; auto. destruct (step D x c) as [x1 w1]. specialize (IH x1 r0).
        destruct (run_from D x1 (q0 ++ r0)), (run_from D x1 q0). cbn [fst] in *. auto. }
      subst cs. pose proof (J q d r) as P. rewrite R in P. cbn [fst] in P. rewrite P, K; auto.
    - assert (N : existsb (fun m => negb (is_next m)) (notes cs) = false).
      { specialize (G eq_refl L). clear -G. induction G as [|m ms Hm _ IH]; cbn; auto. rewrite Hm. auto. }
      rewrite N, orb_false_r. auto.
  Qed.

  (** Who has a clone. *)
  Lemma sdo_clones : forall o (s : session D),
    s_subj (fst (sdo o s)) = match o with SLet => false | _ => s_subj s end /\
    s_user (fst (sdo o s)) = match o with SDrop => false | _ => s_user s end.
  Proof.
    assert (K : forall c s, s_subj (fst (on_dst (D := D) c s)) = s_subj s /\ s_user (fst (on_dst c s)) = s_user s).
    { intros c s. unfold on_dst. destruct (step D (s_dst s) c). auto. }
    assert (G : forall x y s, s_subj (fst (let_go (D := D) x y s)) = x /\ s_user (fst (let_go x y s)) = y).
    { intros x y s. unfold let_go. destruct (x || y); auto. destruct (closed D _).
      - pose proof (K CDrop (mkSession D (s_ended s) (s_unsub s) (s_dst s) x y)) as P. destruct (on_dst CDrop _). auto.
      - pose proof (K (CN Uns) (mkSession D (s_ended s) (s_unsub s) (s_dst s) x y)) as P. destruct (on_dst (CN Uns) _) as [s2 w2].
        pose proof (K CDrop s2) as P2. destruct (on_dst CDrop s2). cbn [fst s_subj s_user] in *. intuition congruence. }
    intros o s. destruct o as [n| | |t|]; cbn [sdo].
    - destruct (s_subj s) eqn:Q; auto. rewrite <- Q. apply note_clones.
    - destruct (s_subj s) eqn:Q; auto.
    - destruct (s_user s) eqn:Q; auto. rewrite <- Q. apply note_clones.
    - destruct (s_user s) eqn:Q; auto. rewrite <- Q. apply K.
    - destruct (s_user s) eqn:Q; auto.
      assert (P : s_subj (fst (if is_closed s then (s, []) else note Uns s)) = s_subj s) by (destruct (is_closed s); auto; apply note_clones).
      destruct (if is_closed s then (s, []) else note Uns s) as [s1 w1]. pose proof (G (s_subj s1) false s1) as P2.
      destruct (let_go (s_subj s1) false s1). cbn [fst] in *. intuition congruence.
  Qed.
  Lemma alone_clones : forall os e,
    s_subj (fst (alone (D := D) os e)) = s_subj (fst e) && forallb (fun o => match o with SLet => false | _ => true end) os /\
    s_user (fst (alone os e)) = s_user (fst e) && forallb (fun o => match o with SDrop => false | _ => true end) os.
  Proof.
    induction os as [|o os IH]; intros e; cbn [alone forallb]; [rewrite !andb_true_r; auto|].
    destruct (IH (one o e)) as [-> ->]. destruct e as [s w]. unfold one. cbn [fst snd]. pose proof (sdo_clones o s) as [P1 P2].
    destruct (sdo o s) as [s1 w1]. cbn [fst] in *. rewrite P1, P2. destruct o; rewrite ?andb_false_l, ?andb_false_r; auto.
  Qed.
  Definition takes_away (o : wop D) : bool := match o with WSubscribe _ _ | WEnd _ => true | _ => false end.
  Definition drops (i : nat) (o : wop D) : bool := match o with WDropSub _ j => i =? j | _ => false end.
  Lemma share_let : forall ops i, forallb (fun o => match o with SLet => false | _ => true end) (share i (S i) true ops) = negb (existsb takes_away ops).
  Proof.
    induction ops as [|o ops IH]; intros i; auto.
    destruct o; cbn [share existsb takes_away orb]; rewrite ?Nat.eqb_refl; cbn [andb app forallb]; auto;
      rewrite ?forallb_app, IH; try destruct (i =? i0); auto.
  Qed.
  Lemma share_drop : forall ops i n al, forallb (fun o => match o with SDrop => false | _ => true end) (share i n al ops) = negb (existsb (drops i) ops).
  Proof.
    induction ops as [|o ops IH]; intros i n al; auto.
    destruct o; cbn [share existsb drops orb]; rewrite ?forallb_app, ?IH; try destruct (al && (S i =? n)); try destruct (i =? i0); auto.
  Qed.
  Theorem made_clones : forall a d b, let w := wexec a (new_subject D) in w_alive w = true -> exists s l,
    nth_error (w_sessions (wexec (a ++ WSubscribe D d :: b) (new_subject D))) (length (w_sessions w)) = Some (s, l) /\
    s_subj s = negb (existsb takes_away b) /\ s_user s = negb (existsb (drops (length (w_sessions w))) b).
  Proof.
    intros a d b w A. pose proof (@made_alone X I E D a d b A) as M. fold w in M.
    pose proof (alone_clones (share (D := D) (length (w_sessions w)) (S (length (w_sessions w))) true b) (mkSession D false false d true true, [])) as [P1 P2].
    rewrite share_let in P1. rewrite share_drop in P2. destruct (alone _ _) as [s l]. exists s, l. auto.
  Qed.

  (** What it answers. *)
  Theorem answers_latest : forall ops, let w := wexec ops (new_subject D) in w_alive w = true ->
    forall s l, nth_error (w_sessions w) (length (w_sessions w) - 1) = Some (s, l) -> snd (wdo (WIsClosed D) w) = Says (is_closed s).
  Proof.
    intros ops w A s l H. cbn [wdo]. rewrite A. destruct (w_sessions w) as [|e r] eqn:Q using rev_ind; [discriminate|].
    rewrite app_length in H. cbn [length] in H. rewrite Nat.add_sub, nth_error_app2, Nat.sub_diag in H by auto. inversion H; subst.
    rewrite rev_app_distr. auto.
  Qed.

  (** When the subject panics. *)
  Definition subscribes (o : wop D) : bool := match o with WSubscribe _ _ => true | _ => false end.
  Lemma some_subscribed : forall ops (w : world D), w_alive (wexec ops w) = true ->
    (w_sessions (wexec ops w) = [] <-> w_sessions w = [] /\ existsb subscribes ops = false).
  Proof.
    assert (Z : forall l j q, change (D := D) j q l = [] <-> l = []).
    { intros l j q. split; intros H; [|subst; destruct j; auto]. apply length_zero_iff_nil. rewrite <- (change_length l j q), H. auto. }
    assert (Y : forall l q, change_last (D := D) q l = [] <-> l = []).
    { intros l q. unfold change_last. destruct (length l); [tauto|apply Z]. }
    assert (Dead : forall ops (w : world D), w_alive w = false -> w_alive (wexec ops w) = false).
    { induction ops as [|o ops IH]; intros w H; cbn [wexec]; auto. apply IH. destruct o; cbn [wdo]; rewrite ?H; auto. }
    induction ops as [|o ops IH]; intros [l al] A; cbn [wexec existsb] in *; [tauto|].
    destruct al.
    2:{ exfalso. rewrite Dead in A; [discriminate|]. destruct o; auto. }
    rewrite (IH _ A). destruct o as [d|c| | |j|j t|j]; cbn [wdo w_sessions w_alive subscribes orb fst] in *.
    - split; [intros [H _]; destruct (change_last SLet l); discriminate|intros [_ H]; discriminate].
    - destruct l; cbn [fst w_sessions]; [tauto|]. rewrite Y. tauto.
    - destruct (rev l) as [|[? ?] ?]; tauto.
    - exfalso. rewrite Dead in A; [discriminate|auto].
    - rewrite Z. tauto.
    - rewrite Z. tauto.
    - rewrite Z. tauto.
  Qed.
  Theorem panics_iff : forall ops o, let w := wexec ops (new_subject D) in w_alive w = true ->
    (snd (wdo o w) = Panics <->
     existsb subscribes ops = false /\ match o with WCall _ _ | WIsClosed _ => True | _ => False end).
  Proof.
    intros ops o w A. pose proof (some_subscribed ops (new_subject D) A) as S. fold w in S. cbn [w_sessions new_subject] in S.
    destruct o; cbn [wdo]; rewrite ?A; cbn [snd]; try (split; [discriminate|tauto]).
    - destruct (w_sessions w); cbn [snd]; [tauto|]. split; [discriminate|]. intros [H _]. destruct S as [_ S]. discriminate S. auto.
    - destruct (rev (w_sessions w)) as [|[s l] r] eqn:R; cbn [snd].
      + assert (w_sessions w = []) by (apply length_zero_iff_nil; rewrite <- rev_length, R; auto). tauto.
      + split; [discriminate|]. intros [H _]. destruct S as [_ S]. rewrite S in R by auto. discriminate.
  Qed.
End Calls.
