(** The publish subject used by several threads: who has subscribed hears all that is pushed from
    then on, and who has left is unsubscribed. *)
From Verif Require Import Base SubscrModel PubConcModel PubConcSpec PubConcProofs PubConcTold PubConcTable PubConcOrder PubConcArrive.
Set Implicit Arguments.

Section Hear.
Variables V E : Type.
Notation call := (ncall (item V) E).
Notation st := (st V E).
Notation note := (note V E).
Notation icmd := (icmd V E).
Notation cmd := (cmd V E).
Variable shuts : nat -> list call -> bool.
Notation step := (step shuts).
Notation inner := (inner shuts).
Notation outer := (outer shuts).
Notation do_now := (do_now shuts).
Notation tell := (tell shuts).
Notation ADD s := (NAdd V E s).
Notation OFF s := (NOff V E s).

Lemma note_dec (s : nat) (n : note) : {n = ADD s} + {n <> ADD s}.
Proof. destruct n as [c|x|x]; try (right; discriminate). destruct (Nat.eq_dec x s); [left; congruence|right; congruence]. Qed.
Lemma add_dec s (l : list note) : {In (ADD s) l} + {~ In (ADD s) l}.
Proof.
  induction l as [|n l IH]; [right; intros []|]. destruct (note_dec s n) as [->|Hn]; [left; left; auto|].
  destruct IH; [left; right; auto|right; intros [Q|Q]; auto].
Qed.

(** *** What comes after the adding of [s]. *)
Lemma after_cons s n l : n <> ADD s -> after s (n :: l) = after s l.
Proof. intros H. destruct n as [c|x|x]; simpl; auto. destruct (Nat.eqb_spec x s); auto. congruence. Qed.
Lemma after_app s a b : In (ADD s) a -> after s (a ++ b) = after s a ++ b.
Proof.
  induction a as [|n a IH]; [intros []|]. intros H. destruct (note_dec s n) as [->|Hn].
  - simpl. rewrite Nat.eqb_refl. auto.
  - change ((n :: a) ++ b) with (n :: (a ++ b)). rewrite !after_cons by auto. apply IH. destruct H; auto. congruence.
Qed.
Definition tail_log (s : nat) (w : st) : list call := match v_from w s with Some i => skipn i (v_log w) | None => [] end.
Definition tail_wait (s : nat) (w : st) : list note := match v_from w s with Some _ => wait w | None => after s (wait w) end.
Definition sline (s t : nat) (w : st) : list V :=
  vals t (tail_log s w) ++ valn t (tail_wait s w) ++ valk (nth t (v_thr w) []).

Lemma inner_logd t k i w : exists d, v_log (snd (inner k i w)) = v_log w ++ d /\
  vals t d = match i with INotes (n :: _) => if v_flag w then [] else val_n t n | _ => [] end.
Proof.
  assert (Q : exists d, v_log (snd (inner k i w)) = v_log w ++ d).
  { destruct i as [d|[|[[]|x|x] ns]| |c [|x r]| |]; simpl; try (exists []; rewrite app_nil_r; auto; fail); try (eexists; reflexivity);
      try (destruct (v_flag w); simpl; [exists []; rewrite app_nil_r; auto|eexists; reflexivity]); try (exists []; rewrite app_nil_r).
    - destruct (v_q w); auto.
    - destruct (v_flag w); auto. destruct (off_same shuts x w) as (_ & _ & _ & _ & _ & _ & _ & -> & _). auto.
    - destruct (closed x w); auto. destruct (v_flag w); tellr; auto.
    - tellr; auto. }
  destruct Q as [d Q]. exists d. split; auto. pose proof (inner_log shuts t k i w) as L. rewrite Q, vals_app in L. apply app_inv_head in L. auto.
Qed.
Lemma now_logd t n w : exists d, v_log (snd (do_now n w)) = v_log w ++ d /\ vals t d = val_n t n.
Proof.
  assert (Q : exists d, v_log (snd (do_now n w)) = v_log w ++ d).
  { destruct n as [[]|x|x]; simpl; try (exists []; rewrite app_nil_r; auto; fail); try (eexists; reflexivity).
    exists []. rewrite app_nil_r. destruct (off_same shuts x w) as (_ & _ & _ & _ & _ & _ & _ & -> & _). auto. }
  destruct Q as [d Q]. exists d. split; auto. pose proof (now_log shuts t n w) as L. rewrite Q, vals_app in L. apply app_inv_head in L. auto.
Qed.
Lemma from_le (w : st) s i : base_ok w -> v_from w s = Some i -> i <= length (v_log w).
Proof. intros H Q. apply (to_heard (b_table H) s Q). Qed.

(** Consuming the first of the line. *)
Lemma sline_take w w' s t n d :
  base_ok w -> arrived s w -> closed s w = false ->
  v_thr w' = v_thr w -> wait w = n :: wait w' -> v_log w' = v_log w ++ d -> vals t d = val_n t n ->
  (n = ADD s -> v_from w' s = Some (length (v_log w)) /\ d = []) -> (n <> ADD s -> v_from w' s = v_from w s) ->
  sline s t w' = sline s t w.
Proof.
  intros Hb Ha Hc Et Ew El Ed H1 H2. unfold sline, tail_log, tail_wait. rewrite Et, Ew, El.
  destruct (note_dec s n) as [->|Hn].
  - destruct (H1 eq_refl) as [-> ->]. rewrite app_nil_r, skipn_all.
    assert (Q : v_from w s = None).
    { pose proof (b_A Hb s) as A. rewrite Ew, sum_cons in A. simpl in A. rewrite Nat.eqb_refl in A. simpl in A.
      destruct (v_from w s); auto. simpl in A. destruct (v_used w s); simpl in A; lia. }
    rewrite Q. simpl. rewrite Nat.eqb_refl. auto.
  - rewrite (H2 Hn). destruct (v_from w s) as [i|] eqn:Ef.
    + rewrite skipn_app_le by (apply (from_le s Hb Ef)). rewrite vals_app, Ed. simpl. rewrite <- !app_assoc. auto.
    + rewrite after_cons by auto. auto.
Qed.
Lemma sline_same w w' s t d : base_ok w -> v_thr w' = v_thr w -> wait w = wait w' -> v_log w' = v_log w ++ d -> vals t d = [] ->
  v_from w' s = v_from w s -> sline s t w' = sline s t w.
Proof.
  intros Hb Et Ew El Ed Ef. unfold sline, tail_log, tail_wait. rewrite Et, <- Ew, El, Ef.
  destruct (v_from w s) as [i|] eqn:Q; auto. rewrite skipn_app_le by (apply (from_le s Hb Q)). rewrite vals_app, Ed, app_nil_r. auto.
Qed.
Lemma sline_step w tk s t : all_ok w -> v_had w s = true -> usable (step w tk) -> closed s (step w tk) = false ->
  sline s t (step w tk) = sline s t w.
Proof.
  intros Hall Hh Hu0 Hc0.
  assert (Hc : closed s w = false).
  { destruct (closed s w) eqn:Q; auto. unfold closed in *. rewrite closed_step in Hc0 by exact Q. congruence. }
  pose proof (usable_back _ _ _ Hu0) as Hu. assert (Hfl : v_flag w = false).
  { destruct Hu as [Q _]. unfold is_closed in Q. destruct (v_flag w); auto. }
  pose proof (ar_had (a_arr Hall) s Hh) as Harr. pose proof (a_base Hall) as Hb. pose proof (b_shape Hb) as Hs. pose proof (a_own Hall) as Ho.
  destruct (had_no_add s (b_B Hb) (a_carry Hall) Hh) as [Na Nn].
  revert Hu0 Hc0. destruct tk as [u k].
  apply (@step_cases V E shuts (fun w' => usable w' -> closed s w' = false -> sline s t w' = sline s t w)); auto.
  - intros c cs En Hl [Hu' _] _. pose proof (ow_k Ho u) as Hku. rewrite En in Hku. inversion Hku as [|? ? H1 H2]; subst.
    destruct (outer_table shuts u c w) as (_ & Ef & El).
    assert (Hw : tail_log s (by_outer shuts u c cs w) = tail_log s w).
    { unfold tail_log. change (v_from (by_outer shuts u c cs w)) with (v_from (snd (outer u c w))).
      change (v_log (by_outer shuts u c cs w)) with (v_log (snd (outer u c w))). rewrite Ef, El. auto. }
    assert (Hsw : forall a n b, wait w = a ++ b -> wait (by_outer shuts u c cs w) = a ++ n :: b -> ~ In (ADD s) b -> n <> ADD s ->
        exists a', tail_wait s w = a' ++ b /\ tail_wait s (by_outer shuts u c cs w) = a' ++ n :: b).
    { intros a n b E1 E2 Hnb Hnn. unfold tail_wait.
      change (v_from (by_outer shuts u c cs w)) with (v_from (snd (outer u c w))). rewrite Ef, E1, E2.
      destruct (v_from w s) eqn:Q; eauto. destruct Harr as [F|[F|F]]; try congruence. rewrite E1 in F.
      apply in_app_or in F as [F|F]; [|tauto]. exists (after s a). rewrite !after_app by auto. auto. }
    unfold sline. rewrite Hw. f_equal.
    assert (Hval : valn t (tail_wait s (by_outer shuts u c cs w)) ++ valk (nth t (v_thr (by_outer shuts u c cs w)) []) =
                   valn t (tail_wait s w) ++ valk (nth t (v_thr w) [])); [|auto].
    assert (Hsame : wait (by_outer shuts u c cs w) = wait w -> tail_wait s (by_outer shuts u c cs w) = tail_wait s w).
    { intros Q. unfold tail_wait. change (v_from (by_outer shuts u c cs w)) with (v_from (snd (outer u c w))). rewrite Ef, Q. auto. }
    assert (Hput : forall n a b, own_n u n -> wait w = a ++ b -> wait (by_outer shuts u c cs w) = a ++ n :: b -> n <> ADD s ->
       (b = [] \/ exists t' l n', v_lock w = Held t' l (Some n') /\ b = [n']) ->
       valn t (tail_wait s (by_outer shuts u c cs w)) = valn t (tail_wait s w) ++ (if u =? t then val_n t n else [])).
    { intros n a b Hown E1 E2 Hnn Hb'. destruct (Hsw a n b E1 E2) as (a' & -> & ->); auto.
      { destruct Hb' as [->|(t' & l & n' & Elk & ->)]; [auto|]. intros [->|[]]. apply (Nn _ _ Elk). }
      change (n :: b) with ([n] ++ b). rewrite !valn_app, <- app_assoc. f_equal. simpl valn at 1. rewrite app_nil_r.
      destruct (Nat.eqb_spec u t) as [<-|Hn].
      - assert (Q : valn u b = []).
        { destruct Hb' as [->|(t' & l & n' & Elk & ->)]; auto. simpl. rewrite app_nil_r. apply (@own_other _ _ u t').
          - apply (ow_now Ho Elk).
          - intros ->. apply (Hl _ _ Elk). }
        rewrite Q, app_nil_r. auto.
      - rewrite (@own_other _ _ t u n Hown Hn), app_nil_r. auto. }
    destruct (Nat.eq_dec u t) as [<-|Hn].
    + rewrite En. assert (Et : nth u (v_thr (by_outer shuts u c cs w)) [] = fst (outer u c w) ++ cs).
      { simpl. apply nth_set_same. apply nth_cons_lt in En; auto. }
      rewrite Et, valk_app. change (valk (c :: cs)) with (val_k c ++ valk cs).
      pose proof (val_step shuts u c w H1) as HV.
      destruct (outer_wait shuts u c cs w) as [(E1 & E2 & E3)|[(n & -> & E2 & E1)|(n & a & b & -> & _ & Ea & Eb & Hb')]].
      * rewrite (Hsame E1). f_equal. f_equal.
        destruct c as [[]| | | | | | | | | | |n|n| |]; try (apply HV; exact Hu').
        -- specialize (E2 n eq_refl). simpl. destruct (v_lock w); try congruence; simpl; rewrite ?app_nil_r; auto.
        -- specialize (E3 n eq_refl). congruence.
      * assert (Hnn : n <> ADD s) by (intros ->; apply (Na _ _ _ En); left; auto). simpl in H1.
        rewrite (Hput n (wait w) [] H1) by (auto; rewrite app_nil_r; auto). rewrite Nat.eqb_refl, (@own_same _ _ u n H1).
        simpl. rewrite E2. simpl. rewrite <- app_assoc. auto.
      * assert (Hnn : n <> ADD s) by (intros ->; apply (Na _ _ _ En); right; auto). simpl in H1.
        rewrite (Hput n a b H1) by auto. rewrite Nat.eqb_refl, (@own_same _ _ u n H1), HV. simpl. rewrite <- app_assoc. auto.
    + assert (Et : nth t (v_thr (by_outer shuts u c cs w)) [] = nth t (v_thr w) []) by (simpl; apply nth_set_other; auto).
      rewrite Et. f_equal. apply Nat.eqb_neq in Hn as Hn'.
      destruct (outer_wait shuts u c cs w) as [(E1 & E2 & E3)|[(n & -> & E2 & E1)|(n & a & b & -> & _ & Ea & Eb & Hb')]].
      * rewrite (Hsame E1). auto.
      * assert (Hnn : n <> ADD s) by (intros ->; apply (Na _ _ _ En); left; auto). simpl in H1.
        rewrite (Hput n (wait w) [] H1) by (auto; rewrite app_nil_r; auto). rewrite Hn', app_nil_r. auto.
      * assert (Hnn : n <> ADD s) by (intros ->; apply (Na _ _ _ En); right; auto). simpl in H1.
        rewrite (Hput n a b H1) by auto. rewrite Hn', app_nil_r. auto.
  - intros i l' now El _ _ Hc'. destruct (inner_logd t k i w) as (d & Ed & Ev). rewrite Hfl in Ev.
    pose proof (inner_waits shuts k El Hs) as Ew.
    assert (Et : v_thr (by_inner shuts u k i l' now w) = v_thr w) by (simpl; apply inner_thr).
    destruct i as [x|[|n ns]| |x y| |];
      try (apply (@sline_same w _ s t d); auto;
           match goal with |- v_from (by_inner _ _ _ ?i _ _ _) _ = _ =>
             simpl v_from; destruct (inner_from shuts k i w s) as [Q|[_ (ns' & Q)]]; [exact Q|discriminate] end).
    apply (@sline_take w _ s t n d); auto.
    + intros ->. simpl. rewrite Hc, Hfl. simpl. unfold upd. rewrite Nat.eqb_refl. split; auto.
      simpl in Ed. rewrite Hc, Hfl in Ed. simpl in Ed. rewrite <- (app_nil_r (v_log w)) in Ed at 1. apply app_inv_head in Ed. auto.
    + intros Hn. simpl v_from. destruct (inner_from shuts k (INotes (n :: ns)) w s) as [Q|[_ (ns' & Q)]]; auto. congruence.
  - intros n El _ Hc'. destruct (now_logd t n w) as (d & Ed & Ev).
    apply (@sline_take w _ s t n d); auto.
    + apply now_thr.
    + apply now_waits; auto.
    + intros ->. exfalso. apply (Nn _ _ El).
    + intros Hn. destruct n as [[]|x|x]; simpl; auto.
      * destruct (off_r shuts x w) as (_ & _ & -> & _). auto.
      * unfold upd. destruct (Nat.eqb_spec s x); auto. congruence.
  - intros l' now El [_ Q]. simpl in Q. congruence.
  - intros El _ _. apply (@sline_same w _ s t []); auto; [symmetry; apply (unlock_waits w El)|simpl; rewrite app_nil_r; auto].
Qed.
Lemma usable_back_run ts w : usable (run shuts ts w) -> usable w.
Proof. revert w. induction ts; simpl; auto. intros w H. apply (usable_back _ _ _ (IHts _ H)). Qed.
Lemma sline_run ts w s t : all_ok w -> v_had w s = true -> usable (run shuts ts w) -> closed s (run shuts ts w) = false ->
  sline s t (run shuts ts w) = sline s t w.
Proof.
  revert w. induction ts as [|a ts IH]; simpl; auto. intros w Ha Hh Hu Hc.
  assert (Hc1 : closed s (step w a) = false).
  { destruct (closed s (step w a)) eqn:Q; auto. unfold closed in Hc. fold (run shuts ts (step w a)) in Hc. rewrite (closed_run shuts ts _ s Q) in Hc. unfold closed in Q. congruence. }
  rewrite IH; auto.
  - apply sline_step; auto. apply usable_back_run with (ts := ts). exact Hu.
  - apply all_step; auto.
  - apply had_step; auto.
Qed.

(** *** Nobody is added after having left. *)
Definition none_after (P : note -> Prop) (s : nat) (l : list note) : Prop :=
  forall a n b, l = a ++ n :: b -> P n -> ~ In (ADD s) b.
Lemma none_tail P s n l : none_after P s (n :: l) -> none_after P s l.
Proof. intros H a m b ->. apply (H (n :: a)). auto. Qed.
Lemma none_pre P s a b : none_after P s (a ++ b) -> none_after P s b.
Proof. induction a; simpl; auto. intros H. apply IHa. apply none_tail in H. auto. Qed.
Lemma none_cons (P : note -> Prop) s n l : (P n -> ~ In (ADD s) l) -> none_after P s l -> none_after P s (n :: l).
Proof. intros H1 H2 [|x a] m b Q; injection Q as -> ->; auto. apply (H2 a m b eq_refl). Qed.
Lemma none_head (P : note -> Prop) s n l : none_after P s (n :: l) -> P n -> ~ In (ADD s) l.
Proof. intros H. apply (H [] n l eq_refl). Qed.
Lemma none_ins (P : note -> Prop) s a n b : n <> ADD s -> (P n -> ~ In (ADD s) b) -> none_after P s (a ++ b) -> none_after P s (a ++ n :: b).
Proof.
  intros Hn Hp. induction a as [|x a IH]; simpl; intros H; [apply none_cons; auto|].
  apply none_cons; [|apply IH; eapply none_tail; eauto]. intros Hx Q. apply (none_head H Hx). apply in_app_or in Q as [Q|Q]; [apply in_or_app; auto|].
  destruct Q as [Q|Q]; [congruence|apply in_or_app; auto].
Qed.
(** Any step, once [s] has subscribed. *)
Lemma none_step (P : note -> Prop) w tk s : all_ok w -> v_had w s = true -> none_after P s (wait w) -> none_after P s (wait (step w tk)).
Proof.
  intros Hall Hh H. pose proof (a_base Hall) as Hb. pose proof (b_shape Hb) as Hs.
  destruct (had_no_add s (b_B Hb) (a_carry Hall) Hh) as [Na Nn].
  destruct tk as [t k]. apply step_cases; auto.
  - intros c cs En Hl. destruct (outer_wait shuts t c cs w) as [(-> & _)|[(n & -> & _ & ->)|(n & a & b & -> & _ & Ea & -> & Hb')]]; auto.
    + apply none_ins; [intros ->; apply (Na _ _ _ En); left; auto|auto|rewrite app_nil_r; auto].
    + apply none_ins; [intros ->; apply (Na _ _ _ En); right; auto| |rewrite <- Ea; auto].
      intros _. destruct Hb' as [->|(t' & l & n' & Elk & ->)]; [auto|]. intros [->|[]]. apply (Nn _ _ Elk).
  - intros i l' now El _. rewrite (inner_waits shuts k El Hs) in H. apply none_pre in H. auto.
  - intros n El. rewrite (now_waits shuts w El) in H. apply none_tail in H. auto.
  - intros l' now El. rewrite (panic_waits shuts El Hs) in H. intros a n b Q Hp Hi. apply (H a n (b ++ opt now)); auto.
    + rewrite Q, <- app_assoc. auto.
    + apply in_or_app. auto.
  - intros El. rewrite (unlock_waits w El). auto.
Qed.
Definition is_off (s : nat) (n : note) : Prop := n = OFF s.
Definition leaves (s : nat) (c : cmd) : Prop := c = KLeave _ _ s \/ c = KTry (OFF s) \/ c = KDefer (OFF s).
Definition leaving (s : nat) (w : st) : Prop :=
  (exists t c, In c (nth t (v_thr w) []) /\ leaves s c) \/ In (OFF s) (wait w).
Record leave_ok (w : st) : Prop := {
  lv_had : forall s, v_left w s = true \/ leaving s w -> v_had w s = true;
  lv_none : forall s, none_after (is_off s) s (wait w);
  lv_left : forall s, v_left w s = true -> usable w -> closed s w = true \/ leaving s w
}.
Lemma in_set t u (x : list cmd) c thr : In c (nth u (set_nth t x thr) []) -> In c x \/ In c (nth u thr []).
Proof. destruct (nth_set t u x [] thr) as [->| ->]; auto. Qed.
Lemma outer_leave t c w s c' : In c' (fst (outer t c w)) -> leaves s c' -> leaves s c \/ (c = KOp (OLeave s) /\ v_had w s = true).
Proof.
  intros Hi Hl. destruct c as [[]| | | | | | |x|x| | |n|n| |]; simpl in Hi; unfold defer in *;
    repeat match goal with
    | H : context [if ?b then _ else _] |- _ => destruct b eqn:?; simpl in *
    | H : context [match v_lock ?w with _ => _ end] |- _ => destruct (v_lock w) eqn:?; simpl in *
    | H : context [match v_q ?w with _ => _ end] |- _ => destruct (v_q w) eqn:?; simpl in *
    end; repeat (destruct Hi as [Hi|Hi]; [subst c'|]); try tauto; destruct Hl as [Q|[Q|Q]]; try discriminate; injection Q as ->;
    unfold leaves; auto.
  right. split; auto. apply andb_prop in Heqb. tauto.
Qed.
Lemma leave_in w t s c : In c (nth t (v_thr w) []) -> leaves s c -> leaving s w.
Proof. intros. left. eauto. Qed.
Lemma outer_leftset t c w s : v_left (snd (outer t c w)) s = true ->
  v_left w s = true \/ (c = KOp (OLeave s) /\ v_had w s = true /\ In (KLeave _ _ s) (fst (outer t c w))).
Proof.
  destruct c as [[]| | | | | | |x|x| | |[]|[]| |]; simpl; unfold defer; cases; tellr; auto.
  unfold upd. destruct (Nat.eqb_spec s s0) as [->|]; auto. intros _. right. apply andb_prop in Heqb. simpl. tauto.
Qed.
Lemma off_closes s (w : st) : base_ok w -> telling w = None -> v_from w s <> None -> closed s w = false -> closed s (off shuts s w) = true.
Proof.
  intros Hb Ht Hf Hc. destruct (to_in (b_table Hb) s Hf Hc) as [Q|(r & Q & _)]; [|congruence].
  unfold off. apply existsb_nat in Q. rewrite Q. unfold closed in *. set (w1 := with_table _ _).
  rewrite (tell_open shuts s Uns w1 Hc). auto.
Qed.
Lemma leave_step w tk : all_ok w -> leave_ok w -> leave_ok (step w tk).
Proof.
  intros Hall H. pose proof (a_base Hall) as Hb. pose proof (b_shape Hb) as Hs.
  assert (Hback : forall s, v_left (step w tk) s = true \/ leaving s (step w tk) -> v_had w s = true).
  { destruct tk as [t k]. apply (@step_cases V E shuts (fun w' => forall s, v_left w' s = true \/ leaving s w' -> v_had w s = true)).
    - apply (lv_had H).
    - intros c cs En Hl s [Q|Q].
      + simpl in Q. apply outer_leftset in Q as [Q|(_ & Q & _)]; auto. apply (lv_had H); auto.
      + assert (Hcs : forall c', In c' (c :: cs) -> leaves s c' -> v_had w s = true).
        { intros c' Hi Hv. apply (lv_had H). right. left. exists t, c'. rewrite En. auto. }
        destruct Q as [(u & c' & Hi & Hv)|Hi].
        * simpl in Hi. apply in_set in Hi as [Hi|Hi].
          -- apply in_app_or in Hi as [Hi|Hi]; [|apply (Hcs c'); simpl; auto].
             destruct (outer_leave t c w Hi Hv) as [Q|[_ Q]]; auto. apply (Hcs c); simpl; auto.
          -- apply (lv_had H). right. left. exists u, c'. auto.
        * destruct (outer_wait shuts t c cs w) as [(Q & _)|[(n & Ec & _ & Q)|(n & a & b & Ec & _ & Ea & Q & _)]]; rewrite Q in Hi.
          -- apply (lv_had H). right. right. auto.
          -- apply in_app_or in Hi as [Hi|[Hi|[]]]; [apply (lv_had H); right; right; auto|]. apply (Hcs c); simpl; auto. right. left. congruence.
          -- apply in_app_or in Hi as [Hi|[Hi|Hi]].
             ++ apply (lv_had H); right; right. rewrite Ea. apply in_or_app; auto.
             ++ apply (Hcs c); simpl; auto. right. right. congruence.
             ++ apply (lv_had H); right; right. rewrite Ea. apply in_or_app; auto.
    - intros i l' now El _ s Q. apply (lv_had H). destruct Q as [Q|[(u & c & Hi & Hv)|Q]].
      + left. simpl in Q. destruct (inner_used shuts k i w) as (_ & _ & F). rewrite F in Q. auto.
      + right. left. simpl in Hi. rewrite inner_thr in Hi. eauto.
      + right. right. rewrite (inner_waits shuts k El Hs). apply in_or_app. auto.
    - intros n El s Q. apply (lv_had H). destruct Q as [Q|[(u & c & Hi & Hv)|Q]].
      + left. destruct n as [[]|x|x]; simpl in Q; auto. destruct (off_r shuts x w) as (_ & _ & _ & _ & _ & F). rewrite F in Q. auto.
      + right. left. simpl in Hi. rewrite now_thr in Hi. eauto.
      + right. right. rewrite (now_waits shuts w El). right. auto.
    - intros l' now El s Q. apply (lv_had H). destruct Q as [Q|[(u & c & Hi & Hv)|Q]]; [left; auto|right; left|right; right].
      + simpl in Hi. apply in_set in Hi as [[]|Hi]. eauto.
      + rewrite (panic_waits shuts El Hs). apply in_or_app. auto.
    - intros El s Q. apply (lv_had H). destruct Q as [Q|[(u & c & Hi & Hv)|Q]]; [left; auto|right; left; eauto|right; right].
      rewrite (unlock_waits w El) in Q. auto. }
  constructor.
  - intros s Hs'. apply had_step. auto.
  - intros s. destruct (v_had w s) eqn:Hh.
    + apply none_step; auto. apply (lv_none H).
    + intros a n b Q Hp. exfalso. assert (F : v_had w s = true); [|congruence]. apply Hback. right. right. rewrite Q, Hp. apply in_or_app; simpl; auto.
  - destruct tk as [t k].
    apply (@step_cases V E shuts (fun w' => (forall s, v_left w' s = true \/ leaving s w' -> v_had w s = true) ->
      forall s, v_left w' s = true -> usable w' -> closed s w' = true \/ leaving s w')); auto; clear Hback.
    + intros _. apply (lv_left H).
    + intros c cs En Hl _ s Hleft [Hu Hup].
      assert (Hnew : nth t (v_thr (by_outer shuts t c cs w)) [] = fst (outer t c w) ++ cs).
      { simpl. apply nth_set_same. apply nth_cons_lt in En; auto. }
      simpl in Hleft. apply outer_leftset in Hleft as [Hleft|(_ & _ & Hi)].
      2:{ right. left. exists t, (KLeave _ _ s). rewrite Hnew. split; [apply in_or_app; auto|left; auto]. }
      assert (Hu' : usable w).
      { split; [destruct (is_closed w) eqn:Q; auto; apply (outer_isc shuts t c w) in Q; unfold by_outer in Hu; unfold is_closed, seen_error in *; simpl in *; congruence|].
        intros Q. apply Hup. simpl. destruct (outer_lock shuts t c w) as [->|(F & _)]; auto. congruence. }
      destruct (lv_left H s Hleft Hu') as [Q|[(u & c' & Hi & Hv)|Q]].
      * left. unfold closed. simpl. rewrite outer_closed; auto.
      * destruct (Nat.eq_dec t u) as [<-|Hn].
        2:{ right. left. exists u, c'. split; auto. simpl. rewrite nth_set_other; auto. }
        rewrite En in Hi. destruct Hi as [->|Hi].
        2:{ right. left. exists t, c'. split; auto. rewrite Hnew. apply in_or_app; auto. }
        destruct (outer_wait shuts t c' cs w) as [(_ & E2 & E3)|[(n & Ec & _ & Q)|(n & a & b & Ec & _ & Ea & Q & _)]].
        -- destruct Hv as [->|[->| ->]].
           ++ destruct (closed s w) eqn:Qc; [left; unfold closed in *; simpl; auto|].
              right. left. exists t, (KTry (OFF s)). rewrite Hnew. simpl. rewrite Qc. simpl. unfold leaves. auto.
           ++ right. left. exists t, (KDefer (OFF s)). rewrite Hnew. specialize (E2 _ eq_refl). simpl. unfold leaves.
              destruct (v_lock w); try congruence; simpl; auto.
           ++ specialize (E3 _ eq_refl). destruct Hu' as [F _]. unfold is_closed in F. rewrite E3 in F. discriminate.
        -- right. right. rewrite Q. apply in_or_app. right. left. destruct Hv as [F|[F|F]]; congruence.
        -- right. right. rewrite Q. apply in_or_app. right. left. destruct Hv as [F|[F|F]]; congruence.
      * right. right. destruct (outer_wait shuts t c cs w) as [(-> & _)|[(n & _ & _ & ->)|(n & a & b & _ & _ & Ea & -> & _)]]; auto.
        -- apply in_or_app; auto.
        -- rewrite Ea in Q. apply in_app_or in Q as [Q|Q]; apply in_or_app; simpl; auto.
    + intros i l' now El _ _ s Hleft [Hu Hup]. simpl in Hleft. destruct (inner_used shuts k i w) as (_ & _ & F). rewrite F in Hleft.
      assert (Hu' : usable w).
      { split; [|congruence]. destruct (is_closed w) eqn:Q; auto. apply (inner_isc shuts k i w) in Q. unfold by_inner in Hu. unfold is_closed, seen_error in *; simpl in *; congruence. }
      assert (Hfl : v_flag w = false) by (destruct Hu' as [Q _]; unfold is_closed in Q; destruct (v_flag w); auto).
      destruct (closed s w) eqn:Hc; [left; unfold closed; simpl; rewrite inner_closed; auto|].
      destruct (lv_left H s Hleft Hu') as [Q|[(u & c' & Hi & Hv)|Q]]; [congruence| |].
      * right. left. exists u, c'. split; auto. simpl. rewrite inner_thr. auto.
      * pose proof (@lv_none _ H s) as Hno. rewrite (inner_waits shuts k El Hs) in Q, Hno. apply in_app_or in Q as [Q|Q]; [|right; right; auto].
        destruct i as [|[|n ns]| | | |]; try (destruct Q; fail). destruct Q as [->|[]]. left. unfold closed. simpl. rewrite Hfl.
        apply off_closes; auto. { unfold telling. rewrite El. auto. }
        destruct (ar_had (a_arr Hall) s (lv_had H (or_introl Hleft))) as [Qa|[Qa|Qa]]; [congruence|auto|].
        rewrite (inner_waits shuts k El Hs) in Qa. destruct Qa as [Qa|Qa]; [discriminate|].
        exfalso. apply (none_head Hno eq_refl). exact Qa.
    + intros n El _ s Hleft [Hu Hup].
      assert (Hleft' : v_left w s = true).
      { destruct n as [[]|x|x]; simpl in Hleft; auto. destruct (off_r shuts x w) as (_ & _ & _ & _ & _ & F). rewrite F in Hleft. auto. }
      assert (Hu' : usable w).
      { split; [|congruence]. destruct (is_closed w) eqn:Q; auto. assert (G := isc_step shuts w (t, 0) Q).
        unfold PubConcModel.step in G. rewrite El, Nat.eqb_refl in G. unfold go_inner in G. unfold by_now in Hu. destruct (do_now n w); simpl in *. congruence. }
      destruct (closed s w) eqn:Hc; [left; unfold closed; simpl; rewrite now_closed; auto|].
      destruct (lv_left H s Hleft' Hu') as [Q|[(u & c' & Hi & Hv)|Q]]; [congruence| |].
      * right. left. exists u, c'. split; auto. simpl. rewrite now_thr. auto.
      * pose proof (@lv_none _ H s) as Hno. rewrite (now_waits shuts w El) in Q, Hno. destruct Q as [->|Q]; [|right; right; auto].
        left. unfold closed. simpl. apply off_closes; auto. { unfold telling. rewrite El. auto. }
        destruct (ar_had (a_arr Hall) s (lv_had H (or_introl Hleft'))) as [Qa|[Qa|Qa]]; [congruence|auto|].
        rewrite (now_waits shuts w El) in Qa. destruct Qa as [Qa|Qa]; [discriminate|].
        exfalso. apply (none_head Hno eq_refl). exact Qa.
    + intros l' now El _ s _ [_ Q]. simpl in Q. congruence.
    + intros El _ s Hleft [Hu Hup]. assert (Hu' : usable w) by (split; [exact Hu|congruence]).
      destruct (lv_left H s Hleft Hu') as [Q|[Q|Q]]; [left; exact Q|right; left; exact Q|right; right].
      rewrite (unlock_waits w El). auto.
Qed.
Lemma leave_start progs : leave_ok (start progs).
Proof.
  assert (N : forall s, ~ leaving s (start progs)).
  { intros s [(t & c & Hi & Hl)|[]]. destruct (start_ops (V := V) (E := E) progs t) as (p & Q). rewrite Q in Hi.
    apply in_map_iff in Hi as (o & <- & _). destruct Hl as [F|[F|F]]; discriminate. }
  constructor.
  - intros s [Q|Q]; [discriminate|destruct (N s Q)].
  - intros s a n b Q. destruct a; discriminate.
  - discriminate.
Qed.
Lemma leave_run ts w : all_ok w -> leave_ok w -> leave_ok (run shuts ts w).
Proof. revert w. induction ts; simpl; auto. intros w Ha H. apply IHts; [apply all_step; auto|apply leave_step; auto]. Qed.
End Hear.
