(** The publish subject used by several threads: nothing is reordered or lost. *)
From Verif Require Import Base SubscrModel PubConcModel PubConcSpec PubConcProofs PubConcTold PubConcTable.
Set Implicit Arguments.

Lemma sub_refl X (l : list X) : sub l l.
Proof. induction l; constructor; auto. Qed.
Lemma sub_none X (l : list X) : sub [] l.
Proof. induction l; constructor; auto. Qed.
Lemma sub_app X (a b c d : list X) : sub a b -> sub c d -> sub (a ++ c) (b ++ d).
Proof. intros H Q. induction H; simpl; auto; constructor; auto. Qed.
Lemma sub_trans X (a b c : list X) : sub a b -> sub b c -> sub a c.
Proof.
  intros H Q. revert a H. induction Q; intros l H; auto.
  - inversion H; subst; constructor; auto.
  - constructor. auto.
Qed.

Section Order.
Variables V E : Type.
Notation call := (ncall (item V) E).
Notation st := (st V E).
Notation note := (note V E).
Notation icmd := (icmd V E).
Notation cmd := (cmd V E).
Variable shuts : nat -> list call -> bool.
Notation step := (step shuts).
Notation inner := (inner shuts).
Notation outer := (outer shuts).
Notation do_now := (do_now shuts).
Notation tell := (tell shuts).

(** *** How the line of notifications moves. *)
Lemma wait_ext (w w' : st) : v_lock w' = v_lock w -> v_q w' = v_q w -> wait w' = wait w.
Proof. intros A B. unfold wait. rewrite A, B. auto. Qed.
Lemma outer_wait t c cs w : let w' := by_outer shuts t c cs w in
  (wait w' = wait w /\ (forall n, c = KTry n -> v_lock w <> Free) /\ (forall n, c = KDefer n -> v_flag w = true)) \/
  (exists n, c = KTry n /\ v_lock w = Free /\ wait w' = wait w ++ [n]) \/
  (exists n a b, c = KDefer n /\ v_flag w = false /\ wait w = a ++ b /\ wait w' = a ++ n :: b /\
     (b = [] \/ exists t' l n', v_lock w = Held t' l (Some n') /\ b = [n'])).
Proof.
  intros w'. assert (Hw : wait w' = wait (snd (outer t c w))) by (apply wait_ext; auto). rewrite Hw. clear Hw w'.
  destruct c as [[]| | | | | | |x|x| | |n|n| |].
  all: try (left; split; [apply wait_ext|split; intros; discriminate]; simpl; unfold defer; cases; tellr; auto; fail).
  - simpl. destruct (v_lock w) eqn:El; simpl.
    + right. left. exists n. split; auto. split; auto. unfold wait. rewrite El. auto.
    + left. split; auto. split; intros; discriminate.
    + left. split; auto. split; intros; discriminate.
  - simpl. unfold defer. destruct (v_flag w) eqn:Ef.
    + left. split; [|split; intros; [discriminate|auto]]. destruct n; auto. apply wait_ext; tellr; auto.
    + right. right. exists n. unfold wait. simpl. destruct (v_lock w) as [|t' [|i l] now|] eqn:El.
      * exists (v_q w), []. rewrite app_nil_r. auto 10.
      * exists (opt now ++ v_q w), []. rewrite app_nil_r, <- app_assoc. auto 10.
      * exists (notes_of (i :: l) ++ v_q w), (opt now). rewrite <- !app_assoc. simpl. repeat split; auto.
        destruct now as [n'|]; simpl; auto. right. eauto 10.
      * exists (v_q w), []. rewrite app_nil_r. auto 10.
  - left. split; [|split; intros; discriminate]. simpl. destruct (v_lock w) eqn:El; auto. unfold wait. simpl. rewrite El. rewrite app_nil_r. auto.
Qed.
Lemma inner_waits t k i l' now w : v_lock w = Held t (i :: l') now -> shape_ok w ->
  wait w = match i with INotes (n :: _) => [n] | _ => [] end ++ wait (by_inner shuts t k i l' now w).
Proof.
  intros El Hs. destruct (Hs _ _ _ El) as [Hw Hn].
  assert (Hnow : l' = [] -> (forall d, i <> IQueue _ _ d) -> now = None).
  { intros -> Hi. destruct now as [n|]; auto. destruct (Hn n eq_refl) as [|[d [Q|[]]]]; [discriminate|]. destruct (Hi d Q). }
  assert (Hq : forall d, i = IQueue _ _ d -> l' = []).
  { intros d ->. inversion Hw as [fs tl Hf Ht Q|]. destruct fs as [|f fs]; [|injection Q as -> _; inversion Hf; subst; simpl in *; tauto].
    simpl in Q. rewrite Q in Ht. inversion Ht; auto. }
  assert (Hk : forall is x, v_q x = v_q w -> notes_of is = match i with INotes ns => tl ns | _ => [] end -> (is <> [] \/ forall d, i <> IQueue _ _ d) ->
    wait w = match i with INotes (n :: _) => [n] | _ => [] end ++ wait (with_lock (Held t (is ++ l') now) x)).
  { intros is x Eq En Hi. unfold wait. rewrite El. simpl v_lock. simpl v_q. rewrite Eq.
    destruct (is ++ l') as [|j l''] eqn:Ei.
    - apply app_eq_nil in Ei as [-> ->]. destruct Hi as [|Hi]; [congruence|]. rewrite Hnow by auto. simpl in *.
      destruct i as [|[|n []]| | | |]; simpl in *; rewrite ?app_nil_r; auto; discriminate.
    - rewrite <- Ei, notes_app, En. change (i :: l') with ([i] ++ l') at 1. rewrite notes_app. simpl. rewrite app_nil_r.
      destruct i as [|[|n ns]| | | |]; simpl; rewrite <- ?app_assoc; auto. }
  unfold by_inner. destruct i as [d|[|[[]|x|x] ns]| |c [|x r]| |]; cbn [PubConcModel.inner].
  - rewrite (Hq d eq_refl) in *. unfold wait. rewrite El. destruct (v_q w) eqn:Eq; simpl; rewrite ?Eq; simpl; rewrite ?app_nil_r; auto.
  - apply Hk; auto. right; discriminate.
  - destruct (v_flag w); apply Hk; simpl; rewrite ?app_nil_r; auto; right; discriminate.
  - destruct (v_flag w); apply Hk; simpl; rewrite ?app_nil_r; auto; right; discriminate.
  - destruct (v_flag w); apply Hk; simpl; rewrite ?app_nil_r; auto; right; discriminate.
  - destruct (v_flag w); apply Hk; simpl; rewrite ?app_nil_r; auto; right; discriminate.
  - apply Hk; simpl; rewrite ?app_nil_r; auto; [|right; discriminate]. destruct (v_flag w); auto. apply (off_r shuts x w).
  - apply Hk; simpl; rewrite ?app_nil_r; auto; [|right; discriminate]. destruct (closed x w); auto. destruct (v_flag w); tellr; auto.
  - apply Hk; auto. right; discriminate.
  - apply Hk; auto. right; discriminate.
  - apply Hk; simpl; tellr; auto; right; discriminate.
  - apply Hk; auto. right; discriminate.
  - apply Hk; auto. right; discriminate.
Qed.
Lemma now_waits t n w : v_lock w = Held t [] (Some n) -> wait w = n :: wait (by_now shuts t n w).
Proof.
  intros El. unfold wait at 1. rewrite El. simpl. f_equal. unfold by_now, wait. simpl.
  destruct n as [[]|x|x]; simpl; rewrite ?app_nil_r; auto. symmetry. apply (off_r shuts x w).
Qed.
Lemma unlock_waits t (w : st) : v_lock w = Held t [] None -> wait (by_unlock w) = wait w.
Proof. intros El. unfold wait. rewrite El. auto. Qed.
Lemma panic_waits t l' now (w : st) : v_lock w = Held t (IQueue _ _ max_depth :: l') now -> shape_ok w ->
  wait w = wait (by_panic t w) ++ opt now.
Proof.
  intros El Hs. destruct (Hs _ _ _ El) as [Hw _]. inversion Hw as [fs tl Hf Ht Q|].
  destruct fs as [|f fs]; [|injection Q as -> _; inversion Hf; subst; simpl in *; tauto].
  simpl in Q. rewrite Q in Ht. inversion Ht; subst. unfold wait. rewrite El. auto.
Qed.

(** *** Values. *)
Lemma vals_app t (a b : list call) : vals t (a ++ b) = vals t a ++ vals t b.
Proof. apply flat_map_app. Qed.
Lemma valn_app t (a b : list note) : valn t (a ++ b) = valn t a ++ valn t b.
Proof. apply flat_map_app. Qed.
Lemma valk_app (a b : list cmd) : valk (a ++ b) = valk a ++ valk b.
Proof. apply flat_map_app. Qed.
(** Whose values a thread carries. *)
Definition own_n (t : nat) (n : note) : Prop := match n with NCall (Nxt (u, _)) => u = t | _ => True end.
Definition own_k (t : nat) (c : cmd) : Prop := match c with KTry n | KDefer n => own_n t n | _ => True end.
Record own_ok (w : st) : Prop := {
  ow_k : forall t, Forall (own_k t) (nth t (v_thr w) []);
  ow_now : forall t l n, v_lock w = Held t l (Some n) -> own_n t n
}.
Lemma own_other t u n : own_n u n -> u <> t -> val_n t n = [].
Proof. destruct n as [[[x v]| | |]|s|s]; simpl; auto. intros ->. destruct (Nat.eqb_spec u t); auto. congruence. Qed.
Lemma own_same t n : own_n t n -> val_n t n = val_k (KTry n).
Proof. destruct n as [[[x v]| | |]|s|s]; simpl; auto. intros ->. rewrite Nat.eqb_refl. auto. Qed.

Lemma outer_own t c w : own_k t c -> Forall (own_k t) (fst (outer t c w)).
Proof.
  intros H. destruct c as [[]| | | | | | | | | | |n|n| |]; simpl; unfold defer; cases; repeat constructor; auto.
Qed.
Lemma own_step w tk : own_ok w -> own_ok (step w tk).
Proof.
  intros H. destruct tk as [t k]. apply step_cases; auto.
  - intros c cs En _. pose proof (ow_k H t) as Ht. rewrite En in Ht. inversion Ht as [|? ? H1 H2]; subst. constructor.
    + intros u. simpl. destruct (Nat.eq_dec t u) as [<-|Hn].
      * rewrite nth_set_same by (apply nth_cons_lt in En; auto). apply Forall_app. split; auto. apply outer_own; auto.
      * rewrite nth_set_other by auto. apply (ow_k H).
    + intros u l n. simpl. destruct (outer_lock shuts t c w) as [->|(_ & now & -> & Hc)]; [apply (ow_now H)|].
      intros Q; injection Q as <- <- ->. destruct Hc as [(n' & -> & Q)|[_ Q]]; [|discriminate]. injection Q as ->. exact H1.
  - intros i l' now El _. constructor; [simpl; rewrite inner_thr; apply (ow_k H)|].
    intros u l n. simpl. intros Q; injection Q as <- <- ->. apply (ow_now H El).
  - intros n El. constructor; [simpl; rewrite now_thr; apply (ow_k H)|]. intros u l m. simpl. discriminate.
  - intros l' now El. constructor; [|discriminate]. intros u. simpl. destruct (nth_set t u [] [] (v_thr w)) as [->| ->]; [constructor|apply (ow_k H)].
  - intros El. constructor; [apply (ow_k H)|discriminate].
Qed.
Lemma inner_log t k i w : vals t (v_log (snd (inner k i w))) =
  vals t (v_log w) ++ match i with INotes (n :: _) => if v_flag w then [] else val_n t n | _ => [] end.
Proof.
  destruct i as [d|[|[[]|x|x] ns]| |c [|x r]| |]; simpl; rewrite ?app_nil_r; auto.
  - destruct (v_q w); auto.
  - destruct (v_flag w); simpl; rewrite ?vals_app, ?app_nil_r; auto. simpl. rewrite app_nil_r. auto.
  - destruct (v_flag w); simpl; rewrite ?vals_app, ?app_nil_r; auto.
  - destruct (v_flag w); simpl; rewrite ?vals_app, ?app_nil_r; auto.
  - destruct (v_flag w); simpl; rewrite ?vals_app, ?app_nil_r; auto.
  - destruct (v_flag w); simpl; rewrite ?app_nil_r; auto. destruct (off_same shuts x w) as (_ & _ & _ & _ & _ & _ & _ & -> & _). auto.
  - destruct (closed x w); [destruct (v_flag w); rewrite app_nil_r; auto|]. destruct (v_flag w); simpl; tellr; rewrite app_nil_r; auto.
  - tellr; auto.
  - rewrite vals_app. simpl. rewrite app_nil_r. auto.
Qed.
Lemma now_log t n w : vals t (v_log (snd (do_now n w))) = vals t (v_log w) ++ val_n t n.
Proof.
  destruct n as [[]|x|x]; simpl; rewrite ?vals_app; simpl; rewrite ?app_nil_r; auto.
  destruct (off_same shuts x w) as (_ & _ & _ & _ & _ & _ & _ & -> & _). auto.
Qed.

(** A part of the line: all of it, or what comes after the adding of [s]. *)
Fixpoint after (s : nat) (l : list note) : list note :=
  match l with
  | [] => []
  | NAdd _ _ x :: l' => if x =? s then l' else after s l'
  | _ :: l' => after s l'
  end.
Definition line (t : nat) (w : st) : list V := vals t (v_log w) ++ valn t (wait w) ++ valk (nth t (v_thr w) []).

Lemma val_step t c w : own_k t c ->
  match c with
  | KTry n => True
  | KDefer n => fst (outer t c w) = []
  | _ => sub (valk (fst (outer t c w))) (val_k c) /\ (is_closed (snd (outer t c w)) = false -> valk (fst (outer t c w)) = val_k c)
  end.
Proof.
  intros H. destruct c as [[]| | | | | | | | | | |n|n| |]; simpl; unfold defer; cases; auto; split; auto; try congruence;
    try apply sub_none; try apply sub_refl; repeat constructor.
Qed.

Lemma line_step w tk t : shape_ok w -> own_ok w ->
  sub (line t (step w tk)) (line t w) /\ (usable (step w tk) -> line t (step w tk) = line t w).
Proof.
  intros Hs Ho. destruct tk as [u k].
  apply (@step_cases V E shuts (fun w' => sub (line t w') (line t w) /\ (usable w' -> line t w' = line t w))).
  - split; auto. apply sub_refl.
  - intros c cs En Hl. pose proof (ow_k Ho u) as Hu. rewrite En in Hu. inversion Hu as [|? ? H1 H2]; subst.
    assert (El : v_log (by_outer shuts u c cs w) = v_log w) by apply (outer_table shuts u c w).
    unfold line. rewrite El.
    assert (Hins : forall n a b, c = KDefer n -> wait w = a ++ b -> wait (by_outer shuts u c cs w) = a ++ n :: b ->
      (b = [] \/ exists t' l n', v_lock w = Held t' l (Some n') /\ b = [n']) -> 
      valn t (wait (by_outer shuts u c cs w)) = valn t (wait w) ++ (if u =? t then val_n t n else [])).
    { intros n a b -> E1 E2 Hb. rewrite E1, E2. change (n :: b) with ([n] ++ b). rewrite !valn_app, <- app_assoc. f_equal. simpl in H1.
      simpl valn at 1. rewrite app_nil_r. destruct (Nat.eqb_spec u t) as [<-|Hn].
      - assert (Q : valn u b = []).
        { destruct Hb as [->|(t' & l & n' & Elk & ->)]; auto. simpl. rewrite app_nil_r. apply (@own_other u t').
          - apply (ow_now Ho Elk).
          - intros ->. apply (Hl _ _ Elk). }
        rewrite Q, app_nil_r. auto.
      - rewrite (@own_other t u n H1 Hn), app_nil_r. auto. }
    destruct (Nat.eq_dec u t) as [<-|Hn].
    + rewrite En. assert (Et : nth u (v_thr (by_outer shuts u c cs w)) [] = fst (outer u c w) ++ cs).
      { simpl. apply nth_set_same. apply nth_cons_lt in En; auto. }
      rewrite Et, valk_app. change (valk (c :: cs)) with (val_k c ++ valk cs).
      pose proof (val_step u c w H1) as HV.
      destruct (outer_wait u c cs w) as [(E1 & E2 & E3)|[(n & -> & E2 & E1)|(n & a & b & -> & Ef & Ea & Eb & Hb)]].
      * rewrite E1. 
        assert (G : sub (valk (fst (outer u c w))) (val_k c) /\ (is_closed (snd (outer u c w)) = false -> valk (fst (outer u c w)) = val_k c)).
        { destruct c as [[]| | | | | | | | | | |n|n| |]; auto.
          - specialize (E2 n eq_refl). simpl. destruct (v_lock w); try congruence; simpl; split; auto; rewrite ?app_nil_r; auto; apply sub_refl.
          - specialize (E3 n eq_refl). rewrite HV. split; [apply sub_none|]. simpl. unfold defer. rewrite E3.
            destruct n as [| |x]; simpl; tellr; unfold is_closed; rewrite ?E3; discriminate. }
        split; [apply sub_app; [apply sub_refl|]; apply sub_app; [apply sub_refl|]; apply sub_app; [apply G|apply sub_refl]|].
        intros [Q _]. rewrite (proj2 G Q). auto.
      * rewrite E1, valn_app. simpl. rewrite E2. simpl. rewrite !app_nil_r. simpl in H1.
        rewrite (@own_same u n H1), <- !app_assoc. split; auto. apply sub_refl.
      * rewrite (Hins n a b eq_refl Ea Eb Hb), Nat.eqb_refl, HV. simpl app. simpl in H1.
        rewrite (@own_same u n H1), <- !app_assoc. split; auto. apply sub_refl.
    + assert (Et : nth t (v_thr (by_outer shuts u c cs w)) [] = nth t (v_thr w) []) by (simpl; apply nth_set_other; auto).
      rewrite Et. apply Nat.eqb_neq in Hn as Hn'.
      assert (Ew : valn t (wait (by_outer shuts u c cs w)) = valn t (wait w)).
      { destruct (outer_wait u c cs w) as [(E1 & E2 & E3)|[(n & -> & E2 & E1)|(n & a & b & Ec & Ef & Ea & Eb & Hb)]].
        - rewrite E1. auto.
        - rewrite E1, valn_app. simpl. simpl in H1. rewrite (@own_other t u n H1 Hn), !app_nil_r. auto.
        - rewrite (Hins n a b Ec Ea Eb Hb), Hn', app_nil_r. auto. }
      rewrite Ew. split; auto. apply sub_refl.
  - intros i l' now El _. unfold line. change (v_log (by_inner shuts u k i l' now w)) with (v_log (snd (inner k i w))).
    rewrite (inner_log t k i w). rewrite (inner_waits k El Hs), valn_app. simpl v_thr. rewrite inner_thr, <- !app_assoc.
    assert (G : (v_flag w = false /\ match i with INotes (n :: _) => if v_flag w then [] else val_n t n | _ => [] end =
                 valn t match i with INotes (n :: _) => [n] | _ => [] end) \/ (v_flag w = true /\
                 match i with INotes (n :: _) => if v_flag w then [] else val_n t n | _ => [] end = [])).
    { destruct (v_flag w); [right|left]; split; auto; destruct i as [|[|n ns]| | | |]; auto. simpl. rewrite app_nil_r. auto. }
    destruct G as [[Ef G]|[Ef G]]; rewrite G.
    + split; auto. apply sub_refl.
    + split.
      * apply sub_app; [apply sub_refl|]. apply sub_app; [apply sub_none|apply sub_refl].
      * intros [Q _]. exfalso. assert (Q2 : is_closed w = true) by (unfold is_closed; rewrite Ef; auto).
        apply (inner_isc shuts k i w) in Q2. unfold by_inner in Q. unfold is_closed, seen_error in *. simpl in *. congruence.
  - intros n El. unfold line. change (v_log (by_now shuts u n w)) with (v_log (snd (do_now n w))).
    rewrite (now_log t n w), (now_waits w El). simpl v_thr. rewrite now_thr. simpl. rewrite <- !app_assoc. split; auto. apply sub_refl.
  - intros l' now El. unfold line. rewrite (panic_waits El Hs), valn_app. change (v_log (by_panic u w)) with (v_log w).
    split; [|intros [_ Q]; simpl in Q; congruence].
    apply sub_app; [apply sub_refl|]. rewrite <- app_assoc. apply sub_app; [apply sub_refl|].
    apply (@sub_app _ [] _). { apply sub_none. }
    simpl. destruct (nth_set u t [] [] (v_thr w)) as [->| ->]; [apply sub_none|apply sub_refl].
  - intros El. unfold line. rewrite (unlock_waits w El). split; auto. apply sub_refl.
Qed.
End Order.
