(** The publish subject used by several threads: ends reach those who have subscribed, destinations
    are told values and then at most one end, and few operations cannot overrun the queue. *)
From Verif Require Import Base SubscrModel PubConcModel PubConcSpec PubConcProofs PubConcTold PubConcTable PubConcOrder PubConcArrive PubConcHear.
Set Implicit Arguments.

Section End.
Variables V E : Type.
Notation call := (ncall (item V) E).
Notation st := (st V E).
Notation note := (note V E).
Notation icmd := (icmd V E).
Notation cmd := (cmd V E).
Variable shuts : nat -> list call -> bool.
Notation step := (step shuts).
Notation inner := (inner shuts).
Notation outer := (outer shuts).
Notation do_now := (do_now shuts).
Notation tell := (tell shuts).
Notation ADD s := (NAdd V E s).

(** *** Ends. *)
Definition is_end (n : note) : Prop := match n with NCall c => ends c = true | _ => False end.
Definition carries (c : cmd) : Prop := exists n, is_end n /\ (c = KTry n \/ c = KDefer n).
Definition carrying (w : st) : Prop := exists t c, In c (nth t (v_thr w) []) /\ carries c.
Definition queued (w : st) : Prop := exists n, In n (wait w) /\ is_end n.
Definition ending (s : nat) (w : st) : Prop :=
  ~ In (ADD s) (wait w) /\ exists t l now, v_lock w = Held t l now /\
  (In (IDrain _ _) l \/ exists c r l', l = ITell c r :: l' /\ ends c = true /\ In s r).
Definition flagging_soon (w : st) : Prop := exists t l now, v_lock w = Held t l now /\ In (IFlag _ _) l.
Record end_ok (s : nat) (w : st) : Prop := {
  e_none : none_after is_end s (wait w);
  e_isc : is_closed w = true -> v_lock w <> Poisoned -> closed s w = true \/ carrying w \/ queued w \/ ending s w;
  e_flag : v_flag w = true \/ flagging_soon w -> v_lock w <> Poisoned -> closed s w = true \/ ending s w
}.

Lemma tail_free (w : st) t i l' now : shape_ok w -> v_lock w = Held t (i :: l') now ->
  match i with IQueue _ _ _ | INotes _ | IClean _ _ => ~ In (IDrain _ _) (i :: l') /\ ~ In (IFlag _ _) (i :: l') | _ => True end.
Proof.
  intros Hs El. destruct (Hs _ _ _ El) as [Hw _]. inversion Hw as [fs tl Hf Ht Q|c r fs tl Hf Ht Q]; [|subst i; auto].
  destruct fs as [|f fs].
  - simpl in Q. rewrite Q in Ht. inversion Ht; subst; auto; simpl; split; intuition discriminate.
  - injection Q as -> <-. inversion Hf as [|? ? F1 F2]; subst. destruct i; simpl in F1; tauto.
Qed.
Lemma outer_isc_new t c w : is_closed w = false -> is_closed (snd (outer t c w)) = true ->
  exists c', In c' (fst (outer t c w)) /\ carries c'.
Proof.
  intros H0. destruct c as [[]| | | | | | |x|x| | |[| |x]|[| |x]| |]; simpl; unfold defer; cases; rewrite ?tell_isc; try congruence; intros H1.
  all: try (unfold is_closed, seen_error in *; simpl in *; congruence).
  - eexists. split; [left; reflexivity|]. exists (NCall (Err e)). simpl. auto.
  - eexists. split; [left; reflexivity|]. exists (NCall Cmp). simpl. auto.
  - eexists. split; [left; reflexivity|]. exists (NCall Cmp). simpl. auto.
  - eexists. split; [left; reflexivity|]. exists (NCall Uns). simpl. auto.
Qed.
Lemma outer_flag t c w : v_flag (snd (outer t c w)) = v_flag w.
Proof. destruct c as [[]| | | | | | |x|x| | |[| |x]|[| |x]| |]; simpl; unfold defer; cases; tellr; auto. Qed.
Lemma in_table (w : st) s : base_ok w -> arrived s w -> closed s w = false -> ~ In (ADD s) (wait w) -> telling w = None -> In s (v_table w).
Proof.
  intros Hb [Q|[Q|Q]] Hc Hn Ht; try congruence; try tauto. destruct (to_in (b_table Hb) s Q Hc) as [|(r & F & _)]; auto. congruence.
Qed.
Lemma wait_tail w t k i l' now n : v_lock w = Held t (i :: l') now -> shape_ok w -> In n (wait (by_inner shuts t k i l' now w)) -> In n (wait w).
Proof. intros El Hs H. rewrite (inner_waits shuts k El Hs). apply in_or_app. auto. Qed.

Lemma stay_inner w t k i l' now s : closed s w = true -> closed s (by_inner shuts t k i l' now w) = true.
Proof. intros H. change (d_closed (v_dest (snd (inner k i w)) s) = true). rewrite inner_closed; auto. Qed.
Lemma stay_outer w t c cs s : closed s w = true -> closed s (by_outer shuts t c cs w) = true.
Proof. intros H. change (d_closed (v_dest (snd (outer t c w)) s) = true). rewrite outer_closed; auto. Qed.
Lemma stay_now w t n s : closed s w = true -> closed s (by_now shuts t n w) = true.
Proof. intros H. change (d_closed (v_dest (snd (do_now n w)) s) = true). rewrite now_closed; auto. Qed.
Lemma ending_inner w t k i l' now s : all_ok w -> v_had w s = true -> v_lock w = Held t (i :: l') now -> ending s w ->
  closed s (by_inner shuts t k i l' now w) = true \/ ending s (by_inner shuts t k i l' now w).
Proof.
  intros Hall Hh El [Hno (t' & l & now' & El' & He)]. rewrite El in El'. injection El' as <- <- <-.
  pose proof (a_base Hall) as Hb. pose proof (b_shape Hb) as Hs.
  destruct (closed s w) eqn:Hc; [left; apply stay_inner; auto|].
  assert (Hno' : ~ In (ADD s) (wait (by_inner shuts t k i l' now w))) by (intros Q; apply Hno; eapply wait_tail; eauto).
  destruct He as [[->|Hi]|(c & r & l2 & Q & Hec & Hir)].
  - right. split; auto. eexists t, _, now. split; [reflexivity|]. right. simpl. exists Uns, (v_table w), l'. repeat split; auto.
    apply in_table; auto. { apply (ar_had (a_arr Hall)); auto. } unfold telling. rewrite El. auto.
  - right. split; auto. eexists t, _, now. split; [reflexivity|]. left. apply in_or_app. auto.
  - injection Q as -> <-. destruct r as [|x r]; [destruct Hir|].
    set (q := k mod length (x :: r)). assert (Hq : q < length (x :: r)) by (apply Nat.mod_upper_bound; discriminate).
    destruct (remove_split _ Hq) as (a & b & E1 & E2). destruct (Nat.eq_dec (nth q (x :: r) 0) s) as [Es|Es].
    + left. unfold closed. cbn [by_inner PubConcModel.inner snd v_dest with_lock]. fold q. rewrite Es.
      unfold closed. rewrite (tell_open shuts s c w Hc). rewrite Hec. auto.
    + right. split; auto. eexists t, _, now. split; [reflexivity|]. right. cbn [PubConcModel.inner fst app]. fold q. rewrite E2.
      exists c, (a ++ b), l'. repeat split; auto. rewrite E1 in Hir. apply in_app_or in Hir as [F|[F|F]]; try congruence; apply in_or_app; auto.
Qed.
Lemma end_head w t k c ns l' now s : all_ok w -> v_had w s = true -> v_lock w = Held t (INotes (NCall c :: ns) :: l') now ->
  ends c = true -> end_ok s w ->
  closed s (by_inner shuts t k (INotes (NCall c :: ns)) l' now w) = true \/ ending s (by_inner shuts t k (INotes (NCall c :: ns)) l' now w).
Proof.
  intros Hall Hh El Hec He. pose proof (a_base Hall) as Hb. pose proof (b_shape Hb) as Hs.
  destruct (closed s w) eqn:Hc; [left; apply stay_inner; auto|].
  destruct (v_flag w) eqn:Ef.
  { exfalso. destruct (e_flag He) as [Q|[_ (t' & l & now' & El' & Q)]]; [auto|congruence|congruence|].
    rewrite El in El'. injection El' as <- <- <-. destruct (tail_free Hs El) as [F _].
    destruct Q as [Q|(? & ? & ? & Q & _)]; [tauto|discriminate]. }
  pose proof (e_none He) as Hn. rewrite (inner_waits shuts k El Hs) in Hn.
  assert (Hno' := none_head Hn Hec). fold (@app note) in Hno'.
  right. split; [exact Hno'|].
  assert (Hin : In s (v_table w)).
  { apply in_table; auto. { apply (ar_had (a_arr Hall)); auto. }
    - rewrite (inner_waits shuts k El Hs). intros [Q|Q]; [discriminate|auto].
    - unfold telling. rewrite El. auto. }
  eexists t, _, now. split; [reflexivity|]. simpl. rewrite Ef. destruct c; try discriminate; simpl; auto;
    right; do 3 eexists; repeat split; auto.
Qed.
Lemma inner_flag k i w : v_flag (snd (inner k i w)) = v_flag w \/ i = IFlag _ _.
Proof.
  destruct i as [d|[|[[]|x|x] ns]| |c [|x r]| |]; simpl; auto; left; cases; simpl; rewrite ?tell_flag; auto; try congruence.
  destruct (off_same shuts x w) as (_ & _ & _ & _ & _ & _ & _ & _ & F & _). congruence.
Qed.
Lemma inner_isc_eq k i w : is_closed (snd (inner k i w)) = is_closed w \/ i = IFlag _ _.
Proof.
  destruct i as [d|[|[[]|x|x] ns]| |c [|x r]| |]; simpl; auto; left; cases; simpl; rewrite ?tell_isc; auto; try congruence.
  destruct (off_same shuts x w) as (_ & _ & _ & _ & _ & _ & _ & _ & _ & F). congruence.
Qed.
Lemma inner_flagging k i w : In (IFlag _ _) (fst (inner k i w)) -> exists c ns, i = INotes (NCall c :: ns) /\ ends c = true.
Proof.
  destruct i as [d|[|[[]|x|x] ns]| |c [|x r]| |]; simpl; cases; intros F; eauto; repeat (destruct F as [F|F]; try discriminate); destruct F.
Qed.
Lemma end_step s w tk : all_ok w -> v_had w s = true -> end_ok s w -> end_ok s (step w tk).
Proof.
  intros Hall Hh He. pose proof (a_base Hall) as Hb. pose proof (b_shape Hb) as Hs.
  destruct (had_no_add s (b_B Hb) (a_carry Hall) Hh) as [Na Nn].
  pose proof (none_step shuts tk Hall Hh (e_none He)) as Hnone.
  revert Hnone. destruct tk as [t k]. apply (@step_cases V E shuts (fun w' => none_after is_end s (wait w') -> end_ok s w')); auto.
  - intros c cs En Hl Hnone.
    assert (Hnew : nth t (v_thr (by_outer shuts t c cs w)) [] = fst (outer t c w) ++ cs).
    { simpl. apply nth_set_same. apply nth_cons_lt in En; auto. }
    assert (Hpo : v_lock (by_outer shuts t c cs w) <> Poisoned -> v_lock w <> Poisoned).
    { simpl. destruct (outer_lock shuts t c w) as [->|(F & _)]; congruence. }
    assert (Hend : ending s w -> ending s (by_outer shuts t c cs w)).
    { intros [Hno (t' & l & now & El & Q)]. split.
      - destruct (outer_wait shuts t c cs w) as [(-> & _)|[(n & -> & _ & ->)|(n & a & b & -> & _ & Ea & -> & _)]]; auto.
        + intros F. apply in_app_or in F as [F|[F|[]]]; auto. apply (Na _ _ _ En). left. congruence.
        + rewrite Ea in Hno. intros F. apply in_app_or in F as [F|[F|F]].
          * apply Hno. apply in_or_app; auto.
          * apply (Na _ _ _ En). right. congruence.
          * apply Hno. apply in_or_app; auto.
      - exists t', l, now. split; auto. simpl. destruct (outer_lock shuts t c w) as [->|(F & _)]; auto. congruence. }
    constructor; auto.
    + intros Hc Hp. specialize (Hpo Hp). change (is_closed (snd (outer t c w)) = true) in Hc.
      destruct (is_closed w) eqn:Hcw.
      2:{ right. left. destruct (outer_isc_new t c w Hcw Hc) as (c' & Hi & Q). exists t, c'. rewrite Hnew. split; auto. apply in_or_app; auto. }
      destruct (e_isc He Hcw Hpo) as [Q|[(u & c' & Hi & Q)|[(n & Hi & Q)|Q]]].
      * left. apply stay_outer; auto.
      * destruct (Nat.eq_dec t u) as [<-|Hn].
        2:{ right. left. exists u, c'. split; auto. simpl. rewrite nth_set_other; auto. }
        rewrite En in Hi. destruct Hi as [->|Hi].
        2:{ right. left. exists t, c'. split; auto. rewrite Hnew. apply in_or_app; auto. }
        destruct Q as (n & Hn & Q).
        destruct (outer_wait shuts t c' cs w) as [(_ & E2 & E3)|[(m & Ec & _ & Ew)|(m & a & b & Ec & _ & Ea & Ew & _)]].
        -- destruct Q as [->| ->].
           ++ right. left. exists t, (KDefer n). rewrite Hnew. specialize (E2 _ eq_refl). split; [|exists n; auto].
              simpl. destruct (v_lock w); try congruence; simpl; auto.
           ++ specialize (E3 _ eq_refl). destruct (e_flag He (or_introl E3) Hpo) as [F|F].
              ** left. apply stay_outer; auto.
              ** right. right. right. auto.
        -- right. right. left. exists n. rewrite Ew. split; auto. apply in_or_app. right. left. destruct Q; congruence.
        -- right. right. left. exists n. rewrite Ew. split; auto. apply in_or_app. right. left. destruct Q; congruence.
      * right. right. left. exists n. split; auto.
        destruct (outer_wait shuts t c cs w) as [(-> & _)|[(m & _ & _ & ->)|(m & a & b & _ & _ & Ea & -> & _)]]; auto.
        -- apply in_or_app; auto.
        -- rewrite Ea in Hi. apply in_app_or in Hi as [Hi|Hi]; apply in_or_app; simpl; auto.
      * right. right. right. auto.
    + intros Hf Hp. specialize (Hpo Hp). destruct (e_flag He) as [Q|Q]; auto.
      * destruct Hf as [Hf|(t' & l & now & El & Hi)].
        -- left. change (v_flag (snd (outer t c w)) = true) in Hf. rewrite outer_flag in Hf. auto.
        -- right. simpl in El. destruct (outer_lock shuts t c w) as [F|(F & now' & F2 & _)].
           ++ rewrite F in El. exists t', l, now. auto.
           ++ rewrite F2 in El. injection El as <- <- <-. destruct Hi as [|[]]; discriminate.
      * left. apply stay_outer; auto.
  - intros i l' now El _ Hnone.
    assert (Hp : v_lock w <> Poisoned) by congruence.
    assert (Hcl : closed s w = true -> closed s (by_inner shuts t k i l' now w) = true) by (apply stay_inner).
    assert (Hfl : v_flag (by_inner shuts t k i l' now w) = true \/ flagging_soon (by_inner shuts t k i l' now w) ->
       closed s (by_inner shuts t k i l' now w) = true \/ ending s (by_inner shuts t k i l' now w)).
    { intros Hf.
      assert (Hcase : (v_flag w = true \/ flagging_soon w) \/ exists c ns, i = INotes (NCall c :: ns) /\ ends c = true).
      { destruct Hf as [Hf|(t' & l & now' & El' & Hi)].
        - left. simpl in Hf. destruct (inner_flag k i w) as [Q|Q]; [left; congruence|]. right. exists t, (i :: l'), now. split; auto. left. auto.
        - simpl in El'. injection El' as <- <- <-. apply in_app_or in Hi as [Hi|Hi]; [right; apply (inner_flagging k i w Hi)|].
          left. right. exists t, (i :: l'), now. split; auto. right. auto. }
      destruct Hcase as [Q|(c & ns & -> & Hec)].
      - destruct (e_flag He Q Hp) as [F|F]; auto. apply ending_inner; auto.
      - apply end_head; auto. }
    constructor; auto. intros Hc _.
    destruct (inner_isc_eq k i w) as [Q| ->].
    2:{ destruct (e_flag He) as [F|F]; auto.
        - right. exists t, (IFlag _ _ :: l'), now. split; auto. left. auto.
        - destruct (ending_inner k Hall Hh El F); auto. }
    change (is_closed (snd (inner k i w)) = true) in Hc. rewrite Q in Hc.
    destruct (e_isc He Hc Hp) as [F|[(u & c' & Hi & F)|[(n & Hi & F)|F]]]; auto.
    + right. left. exists u, c'. split; auto. simpl. rewrite inner_thr. auto.
    + rewrite (inner_waits shuts k El Hs) in Hi. apply in_app_or in Hi as [Hi|Hi].
      * destruct i as [|[|m ns]| | | |]; try (destruct Hi; fail). destruct Hi as [->|[]]. destruct n as [c| |]; try (destruct F; fail).
        destruct (end_head (c := c) k Hall Hh El F He); auto.
      * right. right. left. exists n. auto.
    + destruct (ending_inner k Hall Hh El F); auto.
  - intros n El Hnone. assert (Hp : v_lock w <> Poisoned) by congruence.
    assert (Hcl : closed s w = true -> closed s (by_now shuts t n w) = true) by (apply stay_now).
    assert (Hne : ~ ending s w).
    { intros [_ (t' & l & now & El' & Q)]. rewrite El in El'. injection El' as <- <- <-. destruct Q as [[]|(? & ? & ? & Q & _)]. discriminate. }
    assert (Hen : is_end n -> closed s (by_now shuts t n w) = true \/ ending s (by_now shuts t n w)).
    { intros Hn. destruct n as [c| |]; try (destruct Hn; fail). simpl in Hn.
      destruct (closed s w) eqn:Hc; auto. right. pose proof (e_none He) as Hno. rewrite (now_waits shuts w El) in Hno.
      assert (Hno' := none_head Hno Hn). split; auto.
      assert (Hin : In s (v_table w)).
      { apply in_table; auto. { apply (ar_had (a_arr Hall)); auto. }
        - rewrite (now_waits shuts w El). intros [Q|Q]; [discriminate|auto].
        - unfold telling. rewrite El. auto. }
      eexists t, _, None. split; [reflexivity|]. destruct c; try discriminate; simpl; auto; right; do 3 eexists; repeat split; auto. }
    assert (Hdec : is_end n \/ (~ is_end n /\ is_closed (by_now shuts t n w) = is_closed w /\ v_flag (by_now shuts t n w) = v_flag w)).
    { destruct n as [[]|x|x]; simpl; auto; right; auto. destruct (off_same shuts x w) as (_ & _ & _ & _ & _ & _ & _ & _ & F & Q). auto. }
    assert (Hfg : ~ In (IFlag V E) (fst (do_now n w))).
    { destruct n as [[]|x|x]; simpl; intros F; repeat (destruct F as [F|F]; try discriminate); destruct F. }
    destruct Hdec as [Hn|(Hn & Ei & Ef)].
    + constructor; auto. intros _ _. destruct (Hen Hn); auto.
    + constructor; auto.
      * intros Hc _. rewrite Ei in Hc. destruct (e_isc He Hc Hp) as [F|[(u & c' & Hi & F)|[(m & Hi & F)|F]]]; auto; try (exfalso; auto; fail).
        -- right. left. exists u, c'. split; auto. simpl. rewrite now_thr. auto.
        -- rewrite (now_waits shuts w El) in Hi. destruct Hi as [->|Hi]; [tauto|]. right. right. left. exists m. auto.
      * intros Hf _. destruct Hf as [Hf|(t' & l & now' & El' & Hi)].
        -- rewrite Ef in Hf. destruct (e_flag He (or_introl Hf) Hp); auto. 
        -- simpl in El'. injection El' as <- <- <-. tauto.
  - intros l' now El Hnone. constructor; auto; intros _ F; simpl in F; congruence.
  - intros El Hnone. assert (Hp : v_lock w <> Poisoned) by congruence.
    assert (Hne : ~ ending s w).
    { intros [_ (t' & l & now & El' & Q)]. rewrite El in El'. injection El' as <- <- <-. destruct Q as [[]|(? & ? & ? & Q & _)]. discriminate. }
    constructor; auto.
    + intros Hc _. destruct (e_isc He Hc Hp) as [F|[F|[(m & Hi & F)|F]]]; auto; try (exfalso; auto; fail). right. right. left. exists m.
      rewrite (unlock_waits w El). auto.
    + intros Hf _. destruct Hf as [Hf|(t' & l & now' & El' & Hi)]; [|simpl in El'; discriminate].
      destruct (e_flag He (or_introl Hf) Hp); auto. 
Qed.
Lemma end_run s ts w : all_ok w -> v_had w s = true -> end_ok s w -> end_ok s (run shuts ts w).
Proof. revert w. induction ts; simpl; auto. intros w Ha Hh H. apply IHts; [apply all_step|apply had_step|apply end_step]; auto. Qed.

(** *** No end before the first. *)
Record open_ok (w : st) : Prop := {
  op_carry : carrying w -> is_closed w = true;
  op_queued : queued w -> is_closed w = true;
  op_flag : flagging_soon w -> is_closed w = true
}.
Lemma outer_carry t c w c' : In c' (fst (outer t c w)) -> carries c' -> carries c \/ is_closed (snd (outer t c w)) = true.
Proof.
  intros Hi (n & Hn & Hc). destruct c as [[]| | | | | | |x|x| | |m|m| |]; simpl in Hi; unfold defer in *; simpl;
    repeat match goal with
    | H : context [if ?b then _ else _] |- _ => destruct b eqn:?; simpl in *
    | H : context [match v_lock ?w with _ => _ end] |- _ => destruct (v_lock w) eqn:?; simpl in *
    | H : context [match v_q ?w with _ => _ end] |- _ => destruct (v_q w) eqn:?; simpl in *
    end; repeat (destruct Hi as [Hi|Hi]; [subst c'|]); try tauto; destruct Hc as [Q|Q]; try discriminate; injection Q as <-; simpl in *;
    try discriminate; try tauto.
  all: try (left; exists m; auto; fail).
  all: right; unfold is_closed, seen_error; simpl; rewrite ?orb_true_r; auto.
Qed.
Lemma open_step w tk : shape_ok w -> open_ok w -> open_ok (step w tk).
Proof.
  intros Hs H.
  assert (G : is_closed w = true -> open_ok (step w tk)).
  { intros Q. apply isc_step with (shuts := shuts) (tk := tk) in Q. constructor; auto. }
  destruct (is_closed w) eqn:Hc; auto. clear G.
  assert (N1 : ~ carrying w) by (intros Q; apply (op_carry H) in Q; congruence).
  assert (N2 : ~ queued w) by (intros Q; apply (op_queued H) in Q; congruence).
  assert (N3 : ~ flagging_soon w) by (intros Q; apply (op_flag H) in Q; congruence).
  destruct tk as [t k]. apply step_cases; auto.
  - intros c cs En Hl.
    assert (Nc : ~ carries c) by (intros Q; apply N1; exists t, c; rewrite En; simpl; auto).
    constructor.
    + intros (u & c' & Hi & Q). simpl in Hi. apply in_set in Hi as [Hi|Hi].
      * apply in_app_or in Hi as [Hi|Hi].
        -- destruct (outer_carry t c w Hi Q); [tauto|]. auto.
        -- exfalso. apply N1. exists t, c'. rewrite En. simpl. auto.
      * exfalso. apply N1. exists u, c'. auto.
    + intros (n & Hi & Q). exfalso.
      destruct (outer_wait shuts t c cs w) as [(E1 & _)|[(m & Ec & _ & E1)|(m & a & b & Ec & _ & Ea & E1 & _)]]; rewrite E1 in Hi.
      * apply N2. exists n. auto.
      * apply in_app_or in Hi as [Hi|[->|[]]]; [apply N2; exists n; auto|]. apply Nc. exists n. auto.
      * apply in_app_or in Hi as [Hi|[->|Hi]].
        -- apply N2. exists n. rewrite Ea. split; auto. apply in_or_app; auto.
        -- apply Nc. exists n. auto.
        -- apply N2. exists n. rewrite Ea. split; auto. apply in_or_app; auto.
    + intros (t' & l & now & El & Hi). exfalso. simpl in El. destruct (outer_lock shuts t c w) as [F|(F & now' & F2 & _)].
      * apply N3. rewrite F in El. exists t', l, now. auto.
      * rewrite F2 in El. injection El as <- <- <-. destruct Hi as [|[]]; discriminate.
  - intros i l' now El _. constructor.
    + intros (u & c' & Hi & Q). exfalso. apply N1. exists u, c'. simpl in Hi. rewrite inner_thr in Hi. auto.
    + intros (n & Hi & Q). exfalso. apply N2. exists n. split; auto. eapply wait_tail; eauto.
    + intros (t' & l & now' & El' & Hi). exfalso. simpl in El'. injection El' as <- <- <-. apply in_app_or in Hi as [Hi|Hi].
      * apply (inner_flagging k i w) in Hi as (c & ns & -> & Hec). apply N2. exists (NCall c). split; auto.
        rewrite (inner_waits shuts k El Hs). simpl. auto.
      * apply N3. exists t, (i :: l'), now. split; auto. right. auto.
  - intros n El. constructor.
    + intros (u & c' & Hi & Q). exfalso. apply N1. exists u, c'. simpl in Hi. rewrite now_thr in Hi. auto.
    + intros (m & Hi & Q). exfalso. apply N2. exists m. split; auto. rewrite (now_waits shuts w El). right. auto.
    + intros (t' & l & now' & El' & Hi). exfalso. simpl in El'. injection El' as <- <- <-.
      destruct n as [[]|x|x]; simpl in Hi; repeat (destruct Hi as [Hi|Hi]; try discriminate); destruct Hi.
  - intros l' now El. constructor.
    + intros (u & c' & Hi & Q). exfalso. apply N1. exists u, c'. simpl in Hi. apply in_set in Hi as [[]|Hi]. auto.
    + intros (m & Hi & Q). exfalso. apply N2. exists m. split; auto. rewrite (panic_waits shuts El Hs). apply in_or_app. auto.
    + intros (t' & l & now' & El' & Hi). discriminate.
  - intros El. constructor.
    + intros Q. exfalso. apply N1. exact Q.
    + intros (m & Hi & Q). exfalso. apply N2. exists m. rewrite (unlock_waits w El) in Hi. auto.
    + intros (t' & l & now' & El' & Hi). discriminate.
Qed.
Lemma open_run ts w : all_ok w -> open_ok w -> open_ok (run shuts ts w).
Proof. revert w. induction ts; simpl; auto. intros w Ha H. apply IHts; [apply all_step; auto|apply open_step; auto; apply Ha]. Qed.
Lemma open_start progs : open_ok (start progs).
Proof.
  constructor.
  - intros (t & c & Hi & n & _ & Q). destruct (start_ops (V := V) (E := E) progs t) as (p & F). rewrite F in Hi.
    apply in_map_iff in Hi as (o & <- & _). destruct Q; discriminate.
  - intros (n & [] & _).
  - intros (t & l & now & Q & _). discriminate.
Qed.
Lemma end_begin w s : open_ok w -> is_closed w = false -> end_ok s w.
Proof.
  intros H Hc. constructor.
  - intros a n b Q Hn. assert (F : is_closed w = true); [|congruence]. apply (op_queued H). exists n. rewrite Q. split; auto. apply in_or_app; simpl; auto.
  - congruence.
  - intros [F|F]; [unfold is_closed in Hc; rewrite F in Hc; discriminate|]. apply (op_flag H) in F. congruence.
Qed.

(** *** Values, then at most one end. *)
Definition all_proper (w : st) : Prop := forall s, proper (shuts s) (v_dest w s).
Lemma tell_proper x c (w : st) : all_proper w -> all_proper (tell x c w).
Proof.
  intros H s. unfold PubConcModel.tell. destruct (closed x w) eqn:Hc; auto. simpl. unfold upd. destruct (Nat.eqb_spec s x) as [->|]; auto.
  destruct (H x) as (vs & e & Ht & Q). assert (e = []) as ->.
  { destruct Q as [[]|[Q _]]; auto. unfold closed in Hc. congruence. }
  rewrite app_nil_r in Ht. unfold proper. simpl. rewrite Ht. destruct (ends c) eqn:Ec.
  - exists vs, [c]. split; auto. right. split; auto. eauto.
  - destruct c as [v| | |]; try discriminate. exists (vs ++ [v]), []. rewrite map_app, app_nil_r. auto.
Qed.
Lemma off_proper x (w : st) : all_proper w -> all_proper (off shuts x w).
Proof. intros H. unfold off. destruct (existsb _ _); auto. apply tell_proper. exact H. Qed.
Lemma proper_step w tk : all_proper w -> all_proper (step w tk).
Proof.
  intros H. destruct tk as [t k]. apply step_cases; auto.
  - intros c cs _ _. change (all_proper (snd (outer t c w))).
    destruct c as [[]| | | | | | |x|x| | |[| |x]|[| |x]| |]; simpl; unfold defer; cases; try (exact H); try (apply tell_proper; exact H).
  - intros i l' now _ _. change (all_proper (snd (inner k i w))).
    destruct i as [d|[|[[]|x|x] ns]| |c [|x r]| |]; simpl; cases; try (exact H); try (apply tell_proper; exact H). apply off_proper; auto.
  - intros n _. change (all_proper (snd (do_now n w))). destruct n as [[]|x|x]; simpl; try exact H. apply off_proper; auto.
Qed.
Lemma proper_run ts w : all_proper w -> all_proper (run shuts ts w).
Proof. revert w. induction ts; simpl; auto. intros w H. apply IHts, proper_step, H. Qed.
Lemma proper_start progs : all_proper (start progs).
Proof. intros s. exists [], []. split; auto. left. split; auto. discriminate. Qed.

(** *** Fewer than ten operations. *)
Definition wt (c : cmd) : nat := match c with KHave _ _ _ | KApply _ _ | KApplyLock _ _ => 0 | _ => 1 end.
Definition deep (i : icmd) : nat := match i with IQueue _ _ d => d | _ => 0 end.
Definition depth (lk : lock V E) : nat := match lk with Held _ l _ => sum deep l | _ => 0 end.
Definition load (w : st) : nat := total wt (v_thr w) + length (v_q w) + depth (v_lock w).
Lemma load_step w tk : load (step w tk) <= load w.
Proof.
  destruct tk as [t k]. apply (@step_cases V E shuts (fun w' => load w' <= load w)); auto.
  - intros c cs En _. unfold load, by_outer. simpl. pose proof (total_set wt t (fst (outer t c w) ++ cs) (v_thr w) En) as T. rewrite sum_app in T.
    assert (G : sum wt (fst (outer t c w)) + length (v_q (snd (outer t c w))) + depth (v_lock (snd (outer t c w))) <= wt c + length (v_q w) + depth (v_lock w)); [|lia].
    clear T En. destruct c as [[]| | | | | | |x|x| | |[| |x]|[| |x]| |]; simpl; unfold defer; cases; rewrite ?tell_lock, ?tell_q; simpl;
      rewrite ?app_length, ?sum_cons, ?sum_nil; simpl; rewrite ?sum_cons, ?sum_nil; simpl; try lia;
      match goal with H : v_lock w = _ |- _ => rewrite H; simpl; lia end.
  - intros i l' now El _. unfold load, by_inner. simpl. rewrite inner_thr, El. simpl. rewrite sum_app, sum_cons.
    assert (G : sum deep (fst (inner k i w)) + length (v_q (snd (inner k i w))) <= deep i + length (v_q w)); [|lia].
    destruct i as [d|[|[[]|x|x] ns]| |c [|x r]| |]; simpl; cases; rewrite ?tell_q; simpl; rewrite ?sum_cons, ?sum_nil; simpl; try lia.
    + rewrite Heql. simpl. lia.
    + destruct (off_r shuts x w) as (_ & -> & _). lia.
  - intros n El. unfold load, by_now. simpl. rewrite now_thr, El. simpl.
    destruct n as [[]|x|x]; simpl; rewrite ?sum_cons, ?sum_nil; simpl; try lia. destruct (off_r shuts x w) as (_ & -> & _). lia.
  - intros l' now El. unfold load. simpl. pose proof (total_dead wt t (v_thr w)). lia.
  - intros El. unfold load. simpl. rewrite El. simpl. lia.
Qed.
(** The first operation to get hold of the table is never deferred. *)
Definition early (c : cmd) : Prop := match c with KDefer _ | KApplyLock _ _ => False | _ => True end.
Definition unused (w : st) : Prop := v_lock w = Free /\ v_q w = [] /\ forall t, Forall early (nth t (v_thr w) []).
Definition room (n : nat) (w : st) : Prop := load w < n \/ (load w <= n /\ unused w).
Lemma room_step n w tk : room n w -> room n (step w tk).
Proof.
  pose proof (load_step w tk) as L. intros [H|(H & Hf & Hq & Ht)]; [left; lia|]. revert L. destruct tk as [t k].
  apply (@step_cases V E shuts (fun w' => load w' <= load w -> room n w')); try (intros; congruence).
  - intros _. right. repeat split; auto.
  - intros c cs En _ L.
    assert (Hc : early c /\ Forall early cs) by (specialize (Ht t); rewrite En in Ht; inversion Ht; auto).
    destruct Hc as [Hc Hcs].
    destruct c as [o| | | | | | |x|x| | |m|m| |]; try (destruct Hc; fail).
    12:{ left. unfold load, by_outer in *. simpl in *. rewrite Hf in *. simpl in *.
         pose proof (total_set wt t cs (v_thr w) En) as T. simpl in T. rewrite ?sum_cons, ?sum_nil in *. simpl in *. lia. }
    all: right; split; [lia|]; repeat split.
    all: try (simpl; try (destruct o; simpl); cases; tellr; auto; fail).
    all: intros u; destruct (Nat.eq_dec t u) as [<-|Hn]; [|simpl; rewrite nth_set_other; auto].
    all: match goal with |- Forall early (nth ?t (v_thr (by_outer shuts ?t ?c ?cs ?w)) []) =>
           replace (nth t (v_thr (by_outer shuts t c cs w)) []) with (fst (outer t c w) ++ cs)
             by (symmetry; apply nth_set_same; apply nth_cons_lt in En; auto) end.
    all: apply Forall_app; split; auto.
    all: simpl; try (destruct o; simpl); rewrite ?Hq; cases; repeat constructor.
Qed.
Lemma unpoisoned_step w tk : room max_depth w -> v_lock w <> Poisoned -> v_lock (step w tk) <> Poisoned.
Proof.
  intros Hl Hp. destruct tk as [t k]. apply step_cases; auto; try (intros; discriminate).
  - intros c cs _ _. simpl. destruct (outer_lock shuts t c w) as [->|(_ & now & -> & _)]; auto. discriminate.
  - intros l' now El. destruct Hl as [Hl|(_ & Hl & _)]; [|congruence].
    unfold load in Hl. rewrite El in Hl. simpl in Hl. rewrite sum_cons in Hl. simpl in Hl. unfold max_depth in Hl. lia.
Qed.
Lemma unpoisoned_run ts w : room max_depth w -> v_lock w <> Poisoned -> v_lock (run shuts ts w) <> Poisoned.
Proof. revert w. induction ts; simpl; auto. intros w Hl Hp. apply IHts; [apply room_step; auto|apply unpoisoned_step; auto]. Qed.
Lemma room_start progs : load (start progs) <= max_depth -> room max_depth (start progs).
Proof.
  intros H. right. split; auto. repeat split. intros t. destruct (start_ops (V := V) (E := E) progs t) as (p & F). rewrite F.
  apply Forall_forall. intros c Hi. apply in_map_iff in Hi as (o & <- & _). exact I.
Qed.
Lemma load_start progs : load (start progs) = length (concat progs).
Proof.
  unfold load. simpl. rewrite !Nat.add_0_r. induction progs as [|p ps IH]; simpl; auto.
  unfold total in *. rewrite sum_cons, app_length, IH. f_equal. clear. induction p; simpl; auto. rewrite sum_cons, IHp. auto.
Qed.
End End.
