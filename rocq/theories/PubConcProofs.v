(** The publish subject used by several threads: invariants of all interleavings. *)
From Verif Require Import Base SubscrModel PubConcModel.
Set Implicit Arguments.

Definition sum {X} (f : X -> nat) (l : list X) : nat := list_sum (map f l).
Lemma sum_nil X (f : X -> nat) : sum f [] = 0.
Proof. reflexivity. Qed.
Lemma sum_cons X (f : X -> nat) x l : sum f (x :: l) = f x + sum f l.
Proof. reflexivity. Qed.
Lemma sum_app X (f : X -> nat) a b : sum f (a ++ b) = sum f a + sum f b.
Proof. induction a; simpl; rewrite ?sum_cons; auto. rewrite IHa. lia. Qed.
Arguments sum : simpl never.
Lemma sum_in X (f : X -> nat) x l : In x l -> f x <= sum f l.
Proof. induction l; simpl; [tauto|]. rewrite sum_cons. intros [<-|H]; [lia|]. specialize (IHl H). lia. Qed.
Lemma sum_pos X (f : X -> nat) l : 0 < sum f l -> exists x, In x l /\ 0 < f x.
Proof.
  induction l; [rewrite sum_nil; lia|]. rewrite sum_cons. intros H. destruct (Nat.eq_dec (f a) 0).
  - destruct IHl as (x & ? & ?); [lia|]. exists x. split; [right|]; auto.
  - exists a. split; [left; auto|lia].
Qed.
Definition b2n (b : bool) : nat := if b then 1 else 0.
Definition some2n {X} (o : option X) : nat := match o with Some _ => 1 | None => 0 end.

Lemma set_nth_over X n (x : X) l : length l <= n -> set_nth n x l = l.
Proof. revert n. induction l; simpl; auto. intros [|n] H; [lia|]. rewrite IHl; auto. lia. Qed.
Lemma nth_set_same X n (x d : X) l : n < length l -> nth n (set_nth n x l) d = x.
Proof. revert n. induction l; simpl; [lia|]. intros [|n] H; auto. apply IHl. lia. Qed.
Lemma nth_set_other X n m (x d : X) l : n <> m -> nth m (set_nth n x l) d = nth m l d.
Proof. revert n m. induction l; simpl; auto. intros [|n] [|m] H; auto; try lia. simpl. apply IHl. lia. Qed.
Lemma nth_set X n m (x d : X) l : nth m (set_nth n x l) d = x \/ nth m (set_nth n x l) d = nth m l d.
Proof.
  destruct (Nat.eq_dec n m) as [->|H]; [|right; apply nth_set_other; auto].
  destruct (Nat.lt_ge_cases m (length l)); [left; apply nth_set_same; auto|right; rewrite set_nth_over; auto].
Qed.
Lemma nth_cons_lt X n (l : list (list X)) c cs : nth n l [] = c :: cs -> n < length l.
Proof. intros H. destruct (Nat.lt_ge_cases n (length l)); auto. rewrite nth_overflow in H; [discriminate|auto]. Qed.

Definition total {X} (f : X -> nat) (thr : list (list X)) : nat := sum (sum f) thr.
Lemma total_set X (f : X -> nat) t x thr c cs : nth t thr [] = c :: cs ->
  total f (set_nth t x thr) + f c + sum f cs = total f thr + sum f x.
Proof.
  unfold total. revert t. induction thr as [|y thr IH]; intros [|t]; simpl; try discriminate; rewrite ?sum_cons.
  - intros ->. rewrite sum_cons. lia.
  - intros H. specialize (IH t H). lia.
Qed.
Lemma total_dead X (f : X -> nat) t thr : total f (set_nth t [] thr) <= total f thr.
Proof.
  unfold total. revert t. induction thr as [|y thr IH]; intros [|t]; simpl; rewrite ?sum_cons, ?sum_nil; try lia. specialize (IH t). lia.
Qed.
Lemma total_in X (f : X -> nat) t thr c : In c (nth t thr []) -> f c <= total f thr.
Proof.
  intros H. unfold total. revert t H. induction thr as [|y thr IH]; intros [|t]; simpl; try tauto; rewrite sum_cons.
  - intros H. apply sum_in with (f := f) in H. lia.
  - intros H. apply IH in H. lia.
Qed.
Lemma total_pos X (f : X -> nat) thr : 0 < total f thr -> exists t c, In c (nth t thr []) /\ 0 < f c.
Proof.
  induction thr as [|y thr IH]; unfold total; rewrite ?sum_nil, ?sum_cons; [lia|]. intros H.
  destruct (Nat.eq_dec (sum f y) 0) as [E|E].
  - destruct IH as (t & c & ? & ?); [unfold total; lia|]. exists (S t), c. auto.
  - destruct (sum_pos f y) as (c & ? & ?); [lia|]. exists 0, c. auto.
Qed.

Section Proofs.
Variables V E : Type.
Notation call := (ncall (item V) E).
Notation st := (st V E).
Notation note := (note V E).
Notation icmd := (icmd V E).
Notation cmd := (cmd V E).
Variable shuts : nat -> list call -> bool.
Notation step := (step shuts).
Notation inner := (inner shuts).
Notation outer := (outer shuts).
Notation do_now := (do_now shuts).

(** What waits to be applied, in that order. *)
Definition opt {X} (o : option X) : list X := match o with Some x => [x] | None => [] end.
Definition notes_of (l : list icmd) : list note := flat_map (fun i => match i with INotes ns => ns | _ => [] end) l.
Definition wait (w : st) : list note :=
  match v_lock w with
  | Held _ [] now => opt now ++ v_q w
  | Held _ l now => notes_of l ++ v_q w ++ opt now
  | _ => v_q w
  end.
Lemma notes_app a b : notes_of (a ++ b) = notes_of a ++ notes_of b.
Proof. apply flat_map_app. Qed.

(** *** The cases of a step. *)
Definition by_outer t c cs (w : st) : st :=
  with_thr (set_nth t (fst (outer t c w) ++ cs) (v_thr w)) (snd (outer t c w)).
Definition by_inner t k i l' now (w : st) : st :=
  with_lock (Held t (fst (inner k i w) ++ l') now) (snd (inner k i w)).
Definition by_now t n (w : st) : st := with_lock (Held t (fst (do_now n w)) None) (snd (do_now n w)).
Definition by_panic t (w : st) : st := with_thr (set_nth t [] (v_thr w)) (with_lock (Poisoned) w).
Definition by_unlock (w : st) : st := with_lock Free w.
Lemma step_cases (Q : st -> Prop) w t k :
  Q w ->
  (forall c cs, nth t (v_thr w) [] = c :: cs -> (forall l now, v_lock w <> Held t l now) -> Q (by_outer t c cs w)) ->
  (forall i l' now, v_lock w = Held t (i :: l') now -> (forall d, i = IQueue _ _ d -> d <> max_depth) -> Q (by_inner t k i l' now w)) ->
  (forall n, v_lock w = Held t [] (Some n) -> Q (by_now t n w)) ->
  (forall l' now, v_lock w = Held t (IQueue _ _ max_depth :: l') now -> Q (by_panic t w)) ->
  (v_lock w = Held t [] None -> Q (by_unlock w)) ->
  Q (step w (t, k)).
Proof.
  intros H0 Ho Hi Hn Hp Hu. unfold PubConcModel.step, go_outer.
  assert (Go : (forall l now, v_lock w <> Held t l now) ->
    Q (match nth t (v_thr w) [] with [] => w
       | c :: cs => let '(cs', w') := outer t c w in with_thr (set_nth t (cs' ++ cs) (v_thr w)) w' end)).
  { intros Hl. destruct (nth t (v_thr w) []) as [|c cs] eqn:En; auto.
    specialize (Ho c cs eq_refl Hl). unfold by_outer in Ho. destruct (outer t c w); exact Ho. }
  destruct (v_lock w) as [|t' l now|] eqn:El; try (apply Go; intros; discriminate).
  destruct (Nat.eqb_spec t' t) as [->|Ht]; [|apply Go; intros ? ? F; injection F; auto].
  unfold go_inner. destruct l as [|i l'].
  - destruct now as [n|]; [|apply Hu; auto]. specialize (Hn n eq_refl). unfold by_now in Hn. destruct (do_now n w); exact Hn.
  - destruct i as [d|ns| |c r| |];
      try (specialize (Hi _ _ _ eq_refl ltac:(intros ? F; discriminate)); unfold by_inner in Hi;
           match goal with |- Q (let '(_, _) := ?x in _) => destruct x end; exact Hi).
    destruct (Nat.eqb_spec d max_depth) as [->|Hd]; [eapply Hp; eauto|].
    specialize (Hi _ _ _ eq_refl ltac:(intros ? F; injection F as <-; exact Hd)). unfold by_inner in Hi. destruct (inner k (IQueue V E d) w); exact Hi.
Qed.

(** *** Shapes. *)
(** What the holder has to do. *)
Definition flagging (i : icmd) : Prop := match i with IDrain _ _ | IFlag _ _ => True | _ => False end.
Inductive tail_ok : list icmd -> Prop :=
| TL0 : tail_ok []
| TL1 d : tail_ok [IQueue _ _ d]
| TL2 d : tail_ok [IClean _ _; IQueue _ _ d]
| TL3 ns d : tail_ok [INotes ns; IClean _ _; IQueue _ _ d].
Inductive work_ok : list icmd -> Prop :=
| WK fs tl : Forall flagging fs -> tail_ok tl -> work_ok (fs ++ tl)
| WKt c r fs tl : Forall flagging fs -> tail_ok tl -> work_ok (ITell c r :: fs ++ tl).
Definition shape_ok (w : st) : Prop :=
  forall t l now, v_lock w = Held t l now ->
  work_ok l /\ (forall n, now = Some n -> l = [] \/ exists d, In (IQueue _ _ d) l).


Lemma tell_lock s c (w : st) : v_lock (tell shuts s c w) = v_lock w.
Proof. unfold tell. destruct (closed s w); auto. Qed.
Lemma tell_thr s c (w : st) : v_thr (tell shuts s c w) = v_thr w.
Proof. unfold tell. destruct (closed s w); auto. Qed.
Lemma tell_q s c (w : st) : v_q (tell shuts s c w) = v_q w.
Proof. unfold tell. destruct (closed s w); auto. Qed.
Lemma tell_from s c (w : st) : v_from (tell shuts s c w) = v_from w.
Proof. unfold tell. destruct (closed s w); auto. Qed.
Lemma tell_used s c (w : st) : v_used (tell shuts s c w) = v_used w.
Proof. unfold tell. destruct (closed s w); auto. Qed.
Lemma tell_had s c (w : st) : v_had (tell shuts s c w) = v_had w.
Proof. unfold tell. destruct (closed s w); auto. Qed.
Lemma tell_left s c (w : st) : v_left (tell shuts s c w) = v_left w.
Proof. unfold tell. destruct (closed s w); auto. Qed.
Lemma tell_table s c (w : st) : v_table (tell shuts s c w) = v_table w.
Proof. unfold tell. destruct (closed s w); auto. Qed.
Lemma tell_log s c (w : st) : v_log (tell shuts s c w) = v_log w.
Proof. unfold tell. destruct (closed s w); auto. Qed.
Lemma tell_flag s c (w : st) : v_flag (tell shuts s c w) = v_flag w.
Proof. unfold tell. destruct (closed s w); auto. Qed.
Lemma tell_isc s c (w : st) : is_closed (tell shuts s c w) = is_closed w.
Proof. unfold tell. destruct (closed s w); auto. Qed.
Lemma tell_ends s c (w : st) : v_cmp (tell shuts s c w) = v_cmp w /\ v_uns (tell shuts s c w) = v_uns w /\ v_err (tell shuts s c w) = v_err w.
Proof. unfold tell. destruct (closed s w); auto. Qed.
Lemma off_same s (w : st) : v_lock (off shuts s w) = v_lock w /\ v_thr (off shuts s w) = v_thr w /\ v_q (off shuts s w) = v_q w /\
  v_from (off shuts s w) = v_from w /\ v_used (off shuts s w) = v_used w /\ v_had (off shuts s w) = v_had w /\
  v_left (off shuts s w) = v_left w /\ v_log (off shuts s w) = v_log w /\ v_flag (off shuts s w) = v_flag w /\
  is_closed (off shuts s w) = is_closed w.
Proof.
  unfold off. destruct (existsb _ _); [|repeat split; auto].
  rewrite tell_lock, tell_thr, tell_q, tell_from, tell_used, tell_had, tell_left, tell_log, tell_flag, tell_isc. repeat split.
Qed.

Lemma inner_thr k i w : v_thr (snd (inner k i w)) = v_thr w.
Proof.
  destruct i as [d|[|[c|s|s] ns]| |c [|x r]| |]; simpl; auto.
  - destruct (v_q w); auto.
  - destruct c; simpl; auto; destruct (v_flag w); auto.
  - destruct (v_flag w); auto. apply off_same.
  - destruct (closed s w); auto. destruct (v_flag w); auto. apply tell_thr.
  - apply tell_thr.
Qed.
Lemma now_thr n w : v_thr (snd (do_now n w)) = v_thr w.
Proof. destruct n as [[]| |]; simpl; auto. apply off_same. Qed.
Lemma outer_thr t c w : v_thr (snd (outer t c w)) = v_thr w.
Proof.
  destruct c as [[]| | | | | | | | | | |n|n| |]; simpl; auto; repeat match goal with
    | |- context [if ?b then _ else _] => destruct b; simpl; auto
    | |- context [match v_lock w with _ => _ end] => destruct (v_lock w); simpl; auto
    | |- context [match v_err w with _ => _ end] => destruct (v_err w); simpl; auto end; try apply tell_thr.
  - unfold defer. destruct (v_flag w); auto. destruct n; auto. apply tell_thr.
Qed.
Lemma outer_lock t c w : v_lock (snd (outer t c w)) = v_lock w \/
  (v_lock w = Free /\ exists now, v_lock (snd (outer t c w)) = Held t [IQueue _ _ 0] now /\
    ((exists n, c = KTry n /\ now = Some n) \/ (c = KApplyLock _ _ /\ now = None))).
Proof.
  destruct c as [[]| | | | | | | | | | |n|n| |]; simpl; auto; repeat match goal with
    | |- context [if ?b then _ else _] => destruct b; simpl; auto
    | |- context [match v_err w with _ => _ end] => destruct (v_err w); simpl; auto end; try (left; apply tell_lock).
  - destruct (v_lock w) eqn:El; simpl; auto. right. split; auto. exists (Some n). split; auto. left. exists n. auto.
  - left. unfold defer. destruct (v_flag w); auto. destruct n; auto. apply tell_lock.
  - destruct (v_lock w) eqn:El; simpl; auto. right. split; auto. exists None. auto.
Qed.

Lemma shape_step w tk : shape_ok w -> shape_ok (step w tk).
Proof.
  intros H. destruct tk as [t k]. apply step_cases; auto.
  - intros c cs _ _ t' l now. unfold by_outer. simpl. destruct (outer_lock t c w) as [->|(_ & now' & -> & _)]; [apply H|].
    intros Q; injection Q as <- <- <-. split; [apply (@WK [] _ (Forall_nil _) (TL1 0))|]. intros. right. exists 0. left; auto.
  - intros i l' now El _ t' l now' E'. simpl in E'. injection E' as <- <- <-. destruct (H _ _ _ El) as [Hw Hn].
    assert (Hd : forall d, i = IQueue _ _ d -> l' = []).
    { intros d ->. inversion Hw as [fs tl Hf Ht Q|]. destruct fs as [|f fs]; [|injection Q as -> _; inversion Hf; subst; simpl in *; tauto].
      simpl in Q. rewrite Q in Ht. inversion Ht; auto. }
    split.
    + inversion Hw as [fs tl Hf Ht Q|c r fs tl Hf Ht].
      * destruct fs as [|f fs].
        -- simpl in Q. rewrite Q in Ht. inversion Ht; subst; simpl.
           ++ destruct (v_q w); [apply (@WK [] [] (Forall_nil _) TL0)|apply (@WK [] _ (Forall_nil _) (TL3 _ _))].
           ++ apply (@WK [] _ (Forall_nil _) (TL1 _)).
           ++ destruct ns as [|[[]|s|s] ns]; simpl; try (apply (@WK [] _ (Forall_nil _) (TL2 _)));
                try (apply (@WK [] _ (Forall_nil _) (TL3 _ _))); destruct (v_flag w); simpl;
                try (apply (@WK [] _ (Forall_nil _) (TL3 _ _)));
                first [ solve [apply (@WKt _ _ []); [constructor|constructor]]
                      | solve [apply (@WK [_; _]); [repeat constructor|constructor]]
                      | solve [apply (@WKt _ _ [_; _]); [repeat constructor|constructor]]
                      | solve [apply (@WK [_]); [repeat constructor|constructor]] ].
        -- injection Q as -> <-. inversion Hf as [|? ? F1 F2]; subst. destruct i; simpl in F1; try tauto; simpl; constructor; auto.
      * subst. destruct r; simpl; constructor; auto.
    + intros n ->. destruct (Hn n eq_refl) as [|[d [->|Hi]]]; [discriminate| |].
      * rewrite (Hd d eq_refl). simpl. destruct (v_q w); simpl; auto. right. exists (S d). auto.
      * right. exists d. apply in_or_app. auto.
  - intros n El t' l now E'. simpl in E'. injection E' as <- <- <-. split; [|discriminate].
    destruct n as [[]| |]; simpl; try (apply (@WK [] [] (Forall_nil _) TL0));
      try (apply (@WKt _ _ [] []); constructor). apply (@WK [_] []); repeat constructor.
  - intros. intros ? ? ? Q. discriminate.
  - intros _ ? ? ? Q. discriminate.
Qed.

(** *** Tokens. *)
Definition fA (s : nat) (c : cmd) : nat :=
  match c with
  | KEnd _ _ x | KSub _ _ x | KTry (NAdd _ _ x) | KDefer (NAdd _ _ x) => b2n (x =? s)
  | _ => 0
  end.
Definition fB (s : nat) (c : cmd) : nat :=
  match c with KEnd _ _ x | KSub _ _ x | KHave _ _ x => b2n (x =? s) | _ => 0 end.
Definition nA (s : nat) (n : note) : nat := match n with NAdd _ _ x => b2n (x =? s) | _ => 0 end.
Definition inv_A (w : st) : Prop := forall s,
  total (fA s) (v_thr w) + sum (nA s) (wait w) + some2n (v_from w s) <= b2n (v_used w s).
Definition inv_B (w : st) : Prop := forall s, total (fB s) (v_thr w) + b2n (v_had w s) <= b2n (v_used w s).

Definition held (f : note -> nat) (lk : lock V E) : nat :=
  match lk with Held _ l now => sum f (notes_of l) + sum f (opt now) | _ => 0 end.
Lemma sum_wait f w : sum f (wait w) = held f (v_lock w) + sum f (v_q w).
Proof.
  unfold wait, held. destruct (v_lock w) as [|t [|i l] now|]; auto; rewrite ?sum_app; try lia.
  change (notes_of []) with (@nil note). rewrite sum_nil. lia.
Qed.
Lemma held_free f : held f Free = 0.
Proof. reflexivity. Qed.
Lemma held_poisoned f : held f Poisoned = 0.
Proof. reflexivity. Qed.
Lemma held_take f t now : held f (Held t [IQueue _ _ 0] now) = sum f (opt now).
Proof. reflexivity. Qed.
Arguments held : simpl never.

Ltac lockr := repeat match goal with H : v_lock ?w = _ |- context [v_lock ?w] => rewrite H end.
Ltac tellr := rewrite ?tell_lock, ?tell_thr, ?tell_q, ?tell_from, ?tell_used, ?tell_had, ?tell_left, ?tell_table, ?tell_log, ?tell_flag, ?tell_isc in *.
Ltac sums := rewrite ?held_free, ?held_poisoned, ?held_take in *; simpl in *; rewrite ?sum_app, ?sum_cons, ?sum_nil in *; simpl in *.
(** All the ways one command can go. *)
Ltac cases := repeat match goal with
    | |- context [if ?b then _ else _] => destruct b eqn:?; simpl in *
    | |- context [match v_err ?w with _ => _ end] => destruct (v_err w) eqn:?; simpl in *
    | |- context [match v_lock ?w with _ => _ end] => destruct (v_lock w) eqn:?; simpl in *
    | |- context [match v_q ?w with _ => _ end] => destruct (v_q w) eqn:?; simpl in *
    end.
Definition cost_ok (f : cmd -> nat) (g : note -> nat) (a b : st -> nat) t c w : Prop :=
  sum f (fst (outer t c w)) + held g (v_lock (snd (outer t c w))) + sum g (v_q (snd (outer t c w))) + a (snd (outer t c w)) + b w
  <= f c + held g (v_lock w) + sum g (v_q w) + a w + b (snd (outer t c w)).

Lemma A_outer t c cs w : nth t (v_thr w) [] = c :: cs -> inv_A w -> inv_A (by_outer t c cs w).
Proof.
  intros En H s. specialize (H s). rewrite sum_wait in *. unfold by_outer. simpl.
  pose proof (total_set (fA s) t (fst (outer t c w) ++ cs) (v_thr w) En) as T. rewrite sum_app in T.
  assert (G : sum (fA s) (fst (outer t c w)) + held (nA s) (v_lock (snd (outer t c w))) + sum (nA s) (v_q (snd (outer t c w))) +
     some2n (v_from (snd (outer t c w)) s) + b2n (v_used w s)
     <= fA s c + held (nA s) (v_lock w) + sum (nA s) (v_q w) + some2n (v_from w s) + b2n (v_used (snd (outer t c w)) s)).
  2:lia.
  clear T H En. destruct c as [[]| | | | | | | | | | |[c|x|x]|[c|x|x]| |]; simpl; unfold defer; cases; tellr; lockr; sums; try lia.
  unfold upd. rewrite (Nat.eqb_sym s). destruct (Nat.eqb_spec s0 s); subst; simpl; try rewrite Heqb; simpl; lia.
Qed.
Lemma B_outer t c cs w : nth t (v_thr w) [] = c :: cs -> inv_B w -> inv_B (by_outer t c cs w).
Proof.
  intros En H s. specialize (H s). unfold by_outer. simpl.
  pose proof (total_set (fB s) t (fst (outer t c w) ++ cs) (v_thr w) En) as T. rewrite sum_app in T.
  assert (G : sum (fB s) (fst (outer t c w)) + b2n (v_had (snd (outer t c w)) s) + b2n (v_used w s)
     <= fB s c + b2n (v_had w s) + b2n (v_used (snd (outer t c w)) s)).
  2:lia.
  clear T H En. destruct c as [[]| | | | | | | | | | |[c|x|x]|[c|x|x]| |]; simpl; unfold defer; cases; tellr; sums; try lia;
  unfold upd; rewrite (Nat.eqb_sym s); destruct (Nat.eqb_spec s0 s); subst; simpl; try rewrite Heqb; simpl; lia.
Qed.

Lemma held_cons f t i l now : held f (Held t (i :: l) now) = match i with INotes ns => sum f ns | _ => 0 end + held f (Held t l now).
Proof. unfold held. simpl. rewrite sum_app. destruct i; simpl; rewrite ?sum_nil; lia. Qed.
Lemma held_nil f t now : held f (Held t [] now) = sum f (opt now).
Proof. reflexivity. Qed.
Lemma off_r s (w : st) : v_lock (off shuts s w) = v_lock w /\ v_q (off shuts s w) = v_q w /\
  v_from (off shuts s w) = v_from w /\ v_used (off shuts s w) = v_used w /\ v_had (off shuts s w) = v_had w /\ v_left (off shuts s w) = v_left w.
Proof. destruct (off_same s w) as (? & ? & ? & ? & ? & ? & ? & _). auto 10. Qed.
Ltac offr := repeat match goal with |- context [off shuts ?s ?w] =>
  let H := fresh in pose proof (off_r s w) as H; destruct H as (-> & -> & -> & -> & -> & ->) || fail 1 end.

Lemma A_step w tk : inv_A w -> inv_A (step w tk).
Proof.
  intros H. destruct tk as [t k]. apply step_cases; auto.
  - intros. apply A_outer; auto.
  - intros i l' now El _ s. specialize (H s). rewrite sum_wait in *. rewrite El, held_cons in H. unfold by_inner. simpl.
    rewrite inner_thr. destruct i as [d|[|[[]|x|x] ns]| |c [|x r]| |]; simpl; cases; rewrite ?held_cons; simpl; tellr; try rewrite Heql; sums; try lia.
    + destruct (off_r x w) as (_ & -> & -> & -> & _). lia.
    + revert H. unfold upd. rewrite (Nat.eqb_sym s). destruct (Nat.eqb_spec x s); subst; simpl; lia.
  - intros n El s. specialize (H s). rewrite sum_wait in *. rewrite El, held_nil in H. unfold by_now. simpl. rewrite now_thr.
    destruct n as [[]|x|x]; simpl; rewrite ?held_cons, ?held_nil; sums; try lia.
    + destruct (off_r x w) as (_ & -> & -> & -> & _). lia.
    + revert H. unfold upd. rewrite (Nat.eqb_sym s). destruct (Nat.eqb_spec x s); subst; simpl; lia.
  - intros l' now El s. specialize (H s). rewrite sum_wait in *. simpl. pose proof (total_dead (fA s) t (v_thr w)). sums. lia.
  - intros El s. specialize (H s). rewrite sum_wait in *. simpl. sums. lia.
Qed.
Lemma B_step w tk : inv_B w -> inv_B (step w tk).
Proof.
  intros H. destruct tk as [t k]. apply step_cases; auto.
  - intros. apply B_outer; auto.
  - intros i l' now El _ s. specialize (H s). unfold by_inner. simpl. rewrite inner_thr.
    destruct i as [d|[|[[]|x|x] ns]| |c [|x r]| |]; simpl; cases; tellr; auto.
    + destruct (off_r x w) as (_ & _ & _ & -> & -> & _). auto.
  - intros n El s. specialize (H s). unfold by_now. simpl. rewrite now_thr.
    destruct n as [[]|x|x]; simpl; auto. destruct (off_r x w) as (_ & _ & _ & -> & -> & _). auto.
  - intros l' now El s. specialize (H s). simpl. pose proof (total_dead (fB s) t (v_thr w)). lia.
Qed.
End Proofs.
Arguments held : simpl never.
Ltac tellr := rewrite ?tell_lock, ?tell_thr, ?tell_q, ?tell_from, ?tell_used, ?tell_had, ?tell_left, ?tell_table, ?tell_log, ?tell_flag, ?tell_isc in *.
Ltac sums := rewrite ?held_free, ?held_poisoned, ?held_take in *; simpl in *; rewrite ?sum_app, ?sum_cons, ?sum_nil in *; simpl in *.
Ltac cases := repeat match goal with
    | |- context [if ?b then _ else _] => destruct b eqn:?; simpl in *
    | |- context [match v_err ?w with _ => _ end] => destruct (v_err w) eqn:?; simpl in *
    | |- context [match v_lock ?w with _ => _ end] => destruct (v_lock w) eqn:?; simpl in *
    | |- context [match v_q ?w with _ => _ end] => destruct (v_q w) eqn:?; simpl in *
    end.

