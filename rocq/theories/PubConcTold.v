(** The publish subject used by several threads: what the destinations are told. *)
From Verif Require Import Base SubscrModel PubConcModel PubConcProofs.
Set Implicit Arguments.

Section Told.
Variables V E : Type.
Notation call := (ncall (item V) E).
Notation st := (st V E).
Notation note := (note V E).
Notation icmd := (icmd V E).
Notation cmd := (cmd V E).
Variable shuts : nat -> list call -> bool.
Notation step := (step shuts).
Notation inner := (inner shuts).
Notation outer := (outer shuts).
Notation do_now := (do_now shuts).
Notation tell := (tell shuts).

Lemma tell_other s x c (w : st) : x <> s -> v_dest (tell x c w) s = v_dest w s.
Proof. intros H. unfold PubConcModel.tell. destruct (closed x w); auto. simpl. unfold upd. destruct (Nat.eqb_spec s x); auto. congruence. Qed.
Lemma tell_closed s x c (w : st) : closed s w = true -> v_dest (tell x c w) s = v_dest w s.
Proof.
  intros H. unfold PubConcModel.tell. destruct (closed x w) eqn:Ec; auto. simpl. unfold upd. destruct (Nat.eqb_spec s x); auto. congruence.
Qed.
Lemma tell_open s c (w : st) : closed s w = false ->
  v_dest (tell s c w) s = mkD (d_told (v_dest w s) ++ [c]) (ends c || shuts s (d_told (v_dest w s) ++ [c])).
Proof. intros H. unfold PubConcModel.tell. rewrite H. simpl. unfold upd. rewrite Nat.eqb_refl. auto. Qed.

(** *** Nobody is told anything before it is in the table, except an end. *)
Definition fresh (s : nat) (w : st) : Prop := v_dest w s = mkD [] false.
Definition fK (s : nat) (c : cmd) : nat :=
  match c with KEnd _ _ x | KTry (NAdd _ _ x) | KDefer (NAdd _ _ x) => b2n (x =? s) | _ => 0 end.
Definition fS (s : nat) (c : cmd) : nat := match c with KSub _ _ x => b2n (x =? s) | _ => 0 end.
Definition tok (s : nat) (w : st) : nat := total (fK s) (v_thr w) + sum (nA s) (wait w).
Lemma sum_plus X (f g h : X -> nat) l : (forall x, f x = g x + h x) -> sum f l = sum g l + sum h l.
Proof. intros H. induction l; rewrite ?sum_nil, ?sum_cons; auto. rewrite H, IHl. lia. Qed.
Lemma tok_split s w : total (fA s) (v_thr w) = total (fK s) (v_thr w) + total (fS s) (v_thr w).
Proof.
  unfold total. apply sum_plus. intros l. apply sum_plus. intros [[]| | | | | | | | | | |[]|[]| |]; simpl; lia.
Qed.

Record told_pre (w : st) : Prop := {
  tp_fresh : forall s, v_used w s = false \/ 0 < tok s w -> fresh s w;
  tp_sub : forall s, 0 < total (fS s) (v_thr w) -> fresh s w \/ is_closed w = true;
  tp_none : forall s, v_from w s = None -> fresh s w \/ exists c, ends c = true /\ v_dest w s = mkD [c] true
}.

(** The table and who is being told. *)
Definition telling (w : st) : option (call * list nat) :=
  match v_lock w with Held _ (ITell c r :: _) _ => Some (c, r) | _ => None end.
Definition owing (s : nat) (w : st) : list call :=
  match telling w with Some (c, r) => if existsb (Nat.eqb s) r then [c] else [] | None => [] end.
Definition heard (s i : nat) (w : st) : Prop :=
  i <= length (v_log w) /\
  if closed s w
  then exists x y e, skipn i (v_log w) = x ++ y /\ d_told (v_dest w s) = x ++ e /\ (e = [] \/ e = [Uns])
  else d_told (v_dest w s) ++ owing s w = skipn i (v_log w).
Record table_ok (w : st) : Prop := {
  to_nodup : NoDup (v_table w);
  to_from : forall s, In s (v_table w) -> v_from w s <> None;
  to_tell : forall c r, telling w = Some (c, r) -> NoDup r /\ forall s, In s r -> v_from w s <> None;
  to_in : forall s, v_from w s <> None -> closed s w = false -> In s (v_table w) \/ exists r, telling w = Some (Uns, r) /\ In s r;
  to_heard : forall s i, v_from w s = Some i -> heard s i w
}.

(** *** A step of a thread that does not hold the table. *)
Lemma outer_table t c w : v_table (snd (outer t c w)) = v_table w /\ v_from (snd (outer t c w)) = v_from w /\
  v_log (snd (outer t c w)) = v_log w.
Proof.
  destruct c as [[]| | | | | | | | | | |[]|[]| |]; simpl; unfold defer; repeat match goal with
    | |- context [if ?b then _ else _] => destruct b; simpl; auto
    | |- context [match v_lock w with _ => _ end] => destruct (v_lock w); simpl; auto
    | |- context [match v_err w with _ => _ end] => destruct (v_err w); simpl; auto end;
  rewrite ?tell_table, ?tell_from, ?tell_log; auto.
Qed.
Lemma outer_dest t c w s : v_dest (snd (outer t c w)) s = v_dest w s \/
  (0 < fA s c /\ exists x, snd (outer t c w) = tell s x w /\ ends x = true /\ sum (fK s) (fst (outer t c w)) = 0).
Proof.
  destruct c as [[]| | | | | | |x|x| | |[| |x]|[| |x]| |]; simpl; unfold defer; cases; auto;
  try (destruct (Nat.eq_dec x s) as [->|Hn]; [|left; apply tell_other; auto]; right; rewrite Nat.eqb_refl; split; [simpl; lia|];
       eexists; split; [reflexivity|split; reflexivity]).
Qed.
Lemma outer_isc t c w : is_closed w = true -> is_closed (snd (outer t c w)) = true.
Proof.
  intros H. destruct c as [[]| | | | | | |x|x| | |[| |x]|[| |x]| |]; simpl; unfold defer; cases; rewrite ?tell_isc; auto;
    try (unfold is_closed, seen_error in *; simpl; destruct (v_flag w), (v_cmp w), (v_uns w), (v_err w); simpl in *; auto; discriminate).
Qed.
Lemma outer_telling t c w : telling (snd (outer t c w)) = telling w.
Proof.
  unfold telling. destruct (outer_lock shuts t c w) as [->|(-> & now & -> & _)]; auto.
Qed.

Lemma tok_total_set t c cs w s : nth t (v_thr w) [] = c :: cs ->
  tok s (by_outer shuts t c cs w) + fK s c =
  total (fK s) (v_thr w) + sum (fK s) (fst (outer t c w)) + held (nA s) (v_lock (snd (outer t c w))) + sum (nA s) (v_q (snd (outer t c w))).
Proof.
  intros En. unfold tok. rewrite !sum_wait. unfold by_outer. simpl.
  pose proof (total_set (fK s) t (fst (outer t c w) ++ cs) (v_thr w) En) as TK. rewrite sum_app in TK. lia.
Qed.
Lemma pre_outer t c cs w : nth t (v_thr w) [] = c :: cs -> inv_A w -> told_pre w -> told_pre (by_outer shuts t c cs w).
Proof.
  intros En HA H.
  assert (Hu : forall s, v_used (snd (outer t c w)) s = false -> v_used w s = false).
  { intros s. destruct c as [[]| | | | | | |x|x| | |[]|[]| |]; simpl; unfold defer; cases;
      rewrite ?tell_used; auto. unfold upd. destruct (s =? s0); auto. discriminate. }
  assert (Hd : forall s, v_used (snd (outer t c w)) s = false \/ 0 < tok s (by_outer shuts t c cs w) ->
    v_dest (snd (outer t c w)) s = v_dest w s).
  { intros s Hs. destruct (outer_dest t c w s) as [|(Hf & x & Ex & _ & Hz)]; auto. exfalso.
    specialize (HA s) as H1.
    pose proof (total_in (fA s) t (v_thr w) c) as H3. rewrite En in H3. specialize (H3 (or_introl eq_refl)).
    assert (HH : b2n (v_used w s) <= 1) by (destruct (v_used w s); simpl; lia).
    destruct Hs as [Hs|Hs].
    - apply Hu in Hs. rewrite Hs in H1. simpl in H1. lia.
    - pose proof (tok_total_set t w s En) as TK. rewrite Ex, tell_q, tell_lock, Hz in TK. pose proof (sum_wait (nA s) w) as SW.
      rewrite tok_split in H1.
      assert (fK s c + fS s c = fA s c) by (clear; destruct c as [[]| | | | | | |x|x| | |[]|[]| |]; simpl; lia).
      pose proof (total_in (fS s) t (v_thr w) c) as H4. rewrite En in H4. specialize (H4 (or_introl eq_refl)). lia. }
  assert (Hs : forall s, 0 < fS s c -> 0 < total (fS s) (v_thr w)).
  { intros s Hf. pose proof (total_in (fS s) t (v_thr w) c) as H4. rewrite En in H4. specialize (H4 (or_introl eq_refl)). lia. }
  constructor.
  - intros s Hs'. unfold fresh. change (v_dest (by_outer shuts t c cs w)) with (v_dest (snd (outer t c w))).
    rewrite Hd; auto. destruct Hs' as [Hs'|Hs']; [apply (tp_fresh H); auto|].
    destruct (Nat.eq_dec (tok s w) 0) as [E0|E0]; [|apply (tp_fresh H); right; lia].
    pose proof (tok_total_set t w s En) as TK. unfold tok in E0.
    assert (Hn : 0 < sum (fK s) (fst (outer t c w)) + held (nA s) (v_lock (snd (outer t c w))) + sum (nA s) (v_q (snd (outer t c w)))) by lia.
    rewrite sum_wait in E0. assert (E1 : held (nA s) (v_lock w) = 0) by lia. assert (E2 : sum (nA s) (v_q w) = 0) by lia.
    assert (E3 : fK s c = 0). { pose proof (total_in (fK s) t (v_thr w) c) as H4. rewrite En in H4. specialize (H4 (or_introl eq_refl)). lia. }
    clear TK Hd.
    destruct c as [[]| | | | | | |x|x| | |[| |x]|[| |x]| |]; simpl in *; unfold defer in *;
      repeat match goal with
      | H : context [if ?b then _ else _] |- _ => destruct b eqn:?; simpl in *
      | H : context [match v_err w with _ => _ end] |- _ => destruct (v_err w) eqn:?; simpl in *
      | H : context [match v_lock w with _ => _ end] |- _ => destruct (v_lock w) eqn:?; simpl in *
      end; tellr; sums; try lia; try (rewrite ?Heql in *; sums; lia).
    all: try (apply (tp_fresh H); left; destruct (Nat.eqb_spec s0 s); [subst; auto|simpl in *; lia]).
    all: try (destruct (tp_sub H s (Hs s ltac:(lia))); [auto|congruence]).
    all: destruct (v_q w); simpl in *; lia.
  - intros s Hs'.
    pose proof (total_set (fS s) t (fst (outer t c w) ++ cs) (v_thr w) En) as TS. rewrite sum_app in TS.
    change (v_thr (by_outer shuts t c cs w)) with (set_nth t (fst (outer t c w) ++ cs) (v_thr w)) in Hs'.
    pose proof (total_in (fK s) t (v_thr w) c) as TKin. rewrite En in TKin. specialize (TKin (or_introl eq_refl)).
    pose proof (total_in (fS s) t (v_thr w) c) as TSin. rewrite En in TSin. specialize (TSin (or_introl eq_refl)).
    assert (HsE : 0 < sum (fS s) (fst (outer t c w)) -> fK s c = 1 /\ match c with KEnd _ _ _ => true | _ => false end = true).
    { clear. destruct c as [[]| | | | | | |x|x| | |[]|[]| |]; simpl; unfold defer; cases; sums; try lia.
      all: destruct (x =? s); simpl; auto; lia. }
    destruct (outer_dest t c w s) as [Ed|(Hf & x & Ex & Hx & Hz)].
    + unfold fresh. change (v_dest (by_outer shuts t c cs w)) with (v_dest (snd (outer t c w))). rewrite Ed.
      change (is_closed (by_outer shuts t c cs w)) with (is_closed (snd (outer t c w))).
      assert (Hq : fresh s w \/ is_closed w = true).
      { destruct (Nat.eq_dec (total (fS s) (v_thr w)) 0) as [E0|E0]; [|apply (tp_sub H); lia].
        left. apply (tp_fresh H). right. unfold tok. enough (0 < fK s c) by lia.
        assert (Hp : 0 < sum (fS s) (fst (outer t c w))) by lia. apply HsE in Hp. lia. }
      destruct Hq as [Hq|Hq]; [left; exact Hq|]. right. apply outer_isc; auto.
    + right. specialize (HA s) as H1. rewrite tok_split in H1.
      assert (HH : b2n (v_used w s) <= 1) by (destruct (v_used w s); simpl; lia).
      assert (fK s c + fS s c = fA s c) by (clear; destruct c as [[]| | | | | | |x|x| | |[]|[]| |]; simpl; lia).
      assert (Hp : 0 < sum (fS s) (fst (outer t c w))) by (destruct (Nat.eq_dec (fS s c) 0); lia). apply HsE in Hp as [Hp Hc].
      change (is_closed (by_outer shuts t c cs w)) with (is_closed (snd (outer t c w))).
      destruct c as [[]| | | | | | |y|y| | |[]|[]| |]; try discriminate. simpl in *.
      revert Ex. destruct (v_err w) eqn:Ee; [|destruct (v_cmp w) eqn:Ev].
      * intros _. rewrite tell_isc. unfold is_closed, seen_error. rewrite Ee. apply orb_true_r.
      * intros _. rewrite tell_isc. unfold is_closed. rewrite Ev, orb_true_r. auto.
      * intros Ex. assert (Hfr : fresh s w) by (apply (tp_fresh H); right; unfold tok; lia).
        exfalso. assert (Q : v_dest w s = v_dest (tell s x w) s) by (rewrite <- Ex; auto).
        rewrite tell_open in Q by (unfold closed; rewrite Hfr; auto). rewrite Hfr in Q. discriminate.
  - intros s Hs'. change (v_from (by_outer shuts t c cs w)) with (v_from (snd (outer t c w))) in Hs'.
    destruct (outer_table t c w) as (_ & Ef & _). rewrite Ef in Hs'.
    unfold fresh. change (v_dest (by_outer shuts t c cs w)) with (v_dest (snd (outer t c w))).
    destruct (outer_dest t c w s) as [->|(Hf & x & -> & Hx & _)]; [apply (tp_none H); auto|].
    destruct (closed s w) eqn:Ec; [rewrite (tell_closed s s x w Ec); apply (tp_none H); auto|].
    rewrite (tell_open s x w Ec), Hx. destruct (tp_none H s Hs') as [Hw|(e & _ & Hw)].
    + right. exists x. split; auto. rewrite Hw. auto.
    + unfold closed in Ec. rewrite Hw in Ec. discriminate.
Qed.

Lemma pre_same w w' : told_pre w -> inv_A w ->
  (forall s, v_used w' s = v_used w s) -> (forall s, v_from w' s = None -> v_from w s = None) ->
  (is_closed w = true -> is_closed w' = true) -> (forall s, tok s w' <= tok s w) ->
  (forall s, total (fS s) (v_thr w') <= total (fS s) (v_thr w)) ->
  (forall s, v_dest w' s = v_dest w s \/ v_from w s <> None \/
     (0 < sum (nA s) (wait w) /\ v_dest w' s = v_dest (tell s Uns w) s /\ tok s w' < tok s w)) ->
  told_pre w'.
Proof.
  intros H HA Hu Hf Hc Ht HS Hd.
  assert (Hn : forall s, v_from w s <> None -> tok s w = 0 /\ total (fS s) (v_thr w) = 0 /\ v_used w s = true).
  { intros s Hs. specialize (HA s). rewrite tok_split in HA. unfold tok. destruct (v_from w s); [|congruence]. simpl in HA.
    destruct (v_used w s); simpl in HA; lia. }
  assert (Ha : forall s, 0 < sum (nA s) (wait w) -> tok s w = 1 /\ total (fS s) (v_thr w) = 0 /\ v_used w s = true).
  { intros s Hs. specialize (HA s). rewrite tok_split in HA. unfold tok. destruct (v_used w s); simpl in HA; lia. }
  constructor.
  - intros s Hs. unfold fresh. destruct (Hd s) as [->|[Hx|(Hx & _ & Ht')]].
    + apply (tp_fresh H). destruct Hs as [Hs|Hs]; [left; rewrite <- Hu; auto|right; specialize (Ht s); lia].
    + destruct (Hn s Hx) as (E1 & _ & E2). specialize (Ht s). destruct Hs as [Hs|Hs]; [rewrite Hu in Hs; congruence|lia].
    + destruct (Ha s Hx) as (E1 & _ & E2). destruct Hs as [Hs|Hs]; [rewrite Hu in Hs; congruence|lia].
  - intros s Hs. specialize (HS s). unfold fresh. destruct (Hd s) as [->|[Hx|(Hx & _)]].
    + destruct (tp_sub H s) as [Q|Q]; [lia|left; exact Q|right; auto].
    + destruct (Hn s Hx) as (_ & E1 & _). lia.
    + destruct (Ha s Hx) as (_ & E1 & _). lia.
  - intros s Hs. apply Hf in Hs. unfold fresh. destruct (Hd s) as [->|[Hx|(Hx & Q & _)]]; [apply (tp_none H); auto|congruence|].
    right. exists Uns. split; auto. destruct (Ha s Hx) as (E1 & _). assert (F : fresh s w) by (apply (tp_fresh H); right; lia).
    rewrite Q, tell_open by (unfold closed; rewrite F; auto). rewrite F. auto.
Qed.

(** *** Who is being told. *)
Lemma held_else t (w : st) l now : shape_ok w -> v_lock w = Held t l now -> forall i l', l = i :: l' ->
  match l' with ITell _ _ :: _ => False | _ => True end.
Proof.
  intros Hs El i l' ->. destruct (Hs _ _ _ El) as [Hw _]. inversion Hw as [fs tl Hf Ht Q|c' r' fs tl Hf Ht Q]; subst.
  - destruct fs as [|f fs]; simpl in Q; [subst; inversion Ht; auto|]. injection Q as -> <-. inversion Hf as [|? ? F1 F2]; subst.
    destruct fs as [|g fs]; simpl; [inversion Ht; auto|]. inversion F2 as [|? ? G1 G2]; subst. destruct g; simpl in G1; tauto.
  - destruct fs as [|f fs]; simpl; [inversion Ht; auto|]. inversion Hf as [|? ? F1 F2]; subst. destruct f; simpl in F1; tauto.
Qed.

Lemma inner_dest k i w s : table_ok w -> (forall c r, i = ITell c r -> telling w = Some (c, r)) ->
  v_dest (snd (inner k i w)) s = v_dest w s \/ v_from w s <> None \/
  (exists ns, i = INotes (NAdd _ _ s :: ns) /\ v_flag w = true /\ snd (inner k i w) = tell s Uns w).
Proof.
  intros H Ht. destruct i as [d|[|[[]|x|x] ns]| |c [|x r]| |]; auto.
  - simpl. destruct (v_q w); auto.
  - simpl. destruct (v_flag w); auto.
  - simpl. destruct (v_flag w); auto.
  - simpl. destruct (v_flag w); auto.
  - simpl. destruct (v_flag w); auto. unfold off. destruct (existsb (Nat.eqb x) (v_table w)) eqn:Ex; auto.
    destruct (Nat.eq_dec x s) as [->|Hn]; [|left; rewrite tell_other; auto].
    right; left. apply (to_from H). apply existsb_exists in Ex as (y & Hy & Ey). apply Nat.eqb_eq in Ey. subst; auto.
  - simpl. destruct (closed x w); auto. destruct (v_flag w) eqn:Ef; auto.
    destruct (Nat.eq_dec x s) as [->|Hn]; [|left; rewrite tell_other; auto]. right; right. exists ns. auto.
  - cbn [PubConcModel.inner snd]. set (y := nth _ _ _).
    destruct (Nat.eq_dec y s) as [<-|Hn]; [|left; rewrite tell_other; auto]. right; left.
    apply (proj2 (to_tell H (Ht _ _ eq_refl))). apply nth_In. apply Nat.mod_upper_bound. discriminate.
Qed.
Lemma inner_isc k i w : is_closed w = true -> is_closed (snd (inner k i w)) = true.
Proof.
  intros H. destruct i as [d|[|[[]|x|x] ns]| |c [|x r]| |]; cbn [PubConcModel.inner]; auto;
    try (destruct (v_q w); auto; fail); try (destruct (v_flag w); auto; fail).
  - simpl. destruct (v_flag w); auto. simpl. destruct (off_same shuts x w) as (_ & _ & _ & _ & _ & _ & _ & _ & _ & ->). auto.
  - simpl. destruct (closed x w); auto. destruct (v_flag w); auto. rewrite tell_isc. auto.
  - simpl. rewrite tell_isc. auto.
Qed.
Lemma inner_used k i w : v_used (snd (inner k i w)) = v_used w /\ v_had (snd (inner k i w)) = v_had w /\ v_left (snd (inner k i w)) = v_left w.
Proof.
  destruct i as [d|[|[[]|x|x] ns]| |c [|x r]| |]; simpl; auto.
  - destruct (v_q w); auto.
  - destruct (v_flag w); auto.
  - destruct (v_flag w); auto.
  - destruct (v_flag w); auto.
  - destruct (v_flag w); auto. destruct (off_r shuts x w) as (_ & _ & _ & ? & ? & ?). auto.
  - destruct (closed x w); auto. destruct (v_flag w); tellr; auto.
  - tellr; auto.
Qed.
Lemma inner_from k i w s : v_from (snd (inner k i w)) s = v_from w s \/
  (v_from (snd (inner k i w)) s = Some (length (v_log w)) /\ exists ns, i = INotes (NAdd _ _ s :: ns)).
Proof.
  destruct i as [d|[|[[]|x|x] ns]| |c [|x r]| |]; simpl; auto.
  - destruct (v_q w); auto.
  - destruct (v_flag w); auto.
  - destruct (v_flag w); auto.
  - destruct (v_flag w); auto.
  - destruct (v_flag w); auto. destruct (off_r shuts x w) as (_ & _ & -> & _). auto.
  - destruct (closed x w); auto. destruct (v_flag w); tellr; auto. simpl. unfold upd. destruct (Nat.eqb_spec s x); subst; eauto.
  - tellr; auto.
Qed.
Lemma inner_wait g t k i l' now w : v_lock w = Held t (i :: l') now ->
  sum g (wait (by_inner shuts t k i l' now w)) + match i with INotes (n :: _) => g n | _ => 0 end = sum g (wait w).
Proof.
  intros El. rewrite !sum_wait, El, held_cons. unfold by_inner. simpl.
  destruct i as [d|[|[[]|x|x] ns]| |c [|x r]| |]; simpl; rewrite ?held_cons; sums; try lia.
  - destruct (v_q w) eqn:Eq; simpl; rewrite ?held_cons, ?Eq; sums; lia.
  - destruct (v_flag w); simpl; rewrite ?held_cons; simpl; lia.
  - destruct (v_flag w); simpl; rewrite ?held_cons; simpl; lia.
  - destruct (v_flag w); simpl; rewrite ?held_cons; simpl; lia.
  - destruct (v_flag w); simpl; rewrite ?held_cons; simpl; lia.
  - destruct (v_flag w); [|destruct (off_r shuts x w) as (_ & -> & _)]; lia.
  - destruct (closed x w); [|destruct (v_flag w); tellr]; simpl; lia.
  - tellr. lia.
Qed.
Lemma pre_inner t k i l' now w : v_lock w = Held t (i :: l') now -> inv_A w -> table_ok w -> told_pre w ->
  told_pre (by_inner shuts t k i l' now w).
Proof.
  intros El HA Ht H. apply (@pre_same w); auto.
  - intros s. simpl. rewrite (proj1 (inner_used k i w)). auto.
  - intros s. simpl. destruct (inner_from k i w s) as [->|[-> _]]; auto. discriminate.
  - apply inner_isc.
  - intros s. unfold tok. pose proof (inner_wait (nA s) k w El). simpl. rewrite inner_thr. lia.
  - intros s. simpl. rewrite inner_thr. auto.
  - intros s. change (v_dest (by_inner shuts t k i l' now w)) with (v_dest (snd (inner k i w))).
    destruct (@inner_dest k i w s Ht) as [Q|[Q|(ns & -> & Ef & Q)]]; auto.
    + intros c r ->. unfold telling. rewrite El. auto.
    + right. right. rewrite Q. pose proof (inner_wait (nA s) k w El) as W. simpl in W. rewrite Nat.eqb_refl in W. simpl in W.
      unfold tok. split; [lia|]. split; auto.
      assert (Et : v_thr (by_inner shuts t k (INotes (NAdd _ _ s :: ns)) l' now w) = v_thr w) by apply inner_thr. rewrite Et. lia.
Qed.
Lemma now_wait g t n w : v_lock w = Held t [] (Some n) ->
  sum g (wait (by_now shuts t n w)) + g n = sum g (wait w).
Proof.
  intros El. rewrite !sum_wait, El, held_nil. unfold by_now. simpl.
  destruct n as [[]|x|x]; simpl; rewrite ?held_cons, ?held_nil; sums; try lia.
  destruct (off_r shuts x w) as (_ & -> & _). lia.
Qed.
Lemma pre_now t n w : v_lock w = Held t [] (Some n) -> inv_A w -> table_ok w -> told_pre w -> told_pre (by_now shuts t n w).
Proof.
  intros El HA Ht H. apply (@pre_same w); auto.
  - intros s. destruct n as [[]|x|x]; simpl; auto. destruct (off_r shuts x w) as (_ & _ & _ & -> & _). auto.
  - intros s. destruct n as [[]|x|x]; simpl; auto. { destruct (off_r shuts x w) as (_ & _ & -> & _). auto. }
    unfold upd. destruct (s =? x); auto. discriminate.
  - destruct n as [[]|x|x]; simpl; auto. destruct (off_same shuts x w) as (_ & _ & _ & _ & _ & _ & _ & _ & _ & Q).
    intros. unfold is_closed, seen_error in *. simpl in *. unfold is_closed, seen_error in Q. congruence.
  - intros s. unfold tok. pose proof (now_wait (nA s) w El). simpl. rewrite now_thr. lia.
  - intros s. simpl. rewrite now_thr. auto.
  - intros s. destruct n as [[]|x|x]; simpl; auto. unfold off. destruct (existsb (Nat.eqb x) (v_table w)) eqn:Ex; auto.
    destruct (Nat.eq_dec x s) as [->|Hn]; [|left; rewrite tell_other; auto].
    right; left. apply (to_from Ht). apply existsb_exists in Ex as (y & Hy & Ey). apply Nat.eqb_eq in Ey. subst; auto.
Qed.
Lemma pre_step w tk : inv_A w -> table_ok w -> told_pre w -> told_pre (step w tk).
Proof.
  intros HA Ht H. destruct tk as [t k]. apply step_cases; auto.
  - intros. apply pre_outer; auto.
  - intros. apply pre_inner; auto.
  - intros. apply pre_now; auto.
  - intros l' now El. apply (@pre_same w); auto; intros s.
    + unfold tok. rewrite !sum_wait, El. simpl. pose proof (total_dead (fK s) t (v_thr w)). sums. lia.
    + simpl. apply total_dead.
  - intros El. apply (@pre_same w); auto; intros s. unfold tok. rewrite !sum_wait, El. simpl. sums. lia.
Qed.
End Told.
