(** The publish subject used by several threads: who has subscribed is, or will be, in the table. *)
From Verif Require Import Base SubscrModel PubConcModel PubConcSpec PubConcProofs PubConcTold PubConcTable PubConcOrder.
Set Implicit Arguments.

Section Arrive.
Variables V E : Type.
Notation call := (ncall (item V) E).
Notation st := (st V E).
Notation note := (note V E).
Notation icmd := (icmd V E).
Notation cmd := (cmd V E).
Variable shuts : nat -> list call -> bool.
Notation step := (step shuts).
Notation inner := (inner shuts).
Notation outer := (outer shuts).
Notation do_now := (do_now shuts).
Notation tell := (tell shuts).
Notation ADD s := (NAdd V E s).

(** *** Closed is for ever. *)
Lemma off_closed s x (w : st) : closed s w = true -> v_dest (off shuts x w) s = v_dest w s.
Proof. intros H. unfold off. destruct (existsb _ _); auto. rewrite (tell_closed shuts s x Uns); auto. Qed.
Lemma inner_closed k i w s : closed s w = true -> v_dest (snd (inner k i w)) s = v_dest w s.
Proof.
  intros H. destruct i as [d|[|[[]|x|x] ns]| |c [|x r]| |]; simpl; auto.
  - destruct (v_q w); auto.
  - destruct (v_flag w); auto.
  - destruct (v_flag w); auto.
  - destruct (v_flag w); auto.
  - destruct (v_flag w); auto. apply off_closed; auto.
  - destruct (closed x w); auto. destruct (v_flag w); auto. apply tell_closed; auto.
  - apply tell_closed; auto.
Qed.
Lemma now_closed n w s : closed s w = true -> v_dest (snd (do_now n w)) s = v_dest w s.
Proof. intros H. destruct n as [[]|x|x]; simpl; auto. apply off_closed; auto. Qed.
Lemma outer_closed t c w s : closed s w = true -> v_dest (snd (outer t c w)) s = v_dest w s.
Proof. intros H. destruct (outer_dest shuts t c w s) as [->|(_ & x & -> & _)]; auto. apply tell_closed; auto. Qed.
Lemma closed_step w tk s : closed s w = true -> v_dest (step w tk) s = v_dest w s.
Proof.
  intros H. destruct tk as [t k]. apply step_cases; auto.
  - intros. apply outer_closed; auto.
  - intros. apply inner_closed; auto.
  - intros. apply now_closed; auto.
Qed.
Lemma closed_run ts w s : closed s w = true -> v_dest (run shuts ts w) s = v_dest w s.
Proof.
  revert w. induction ts; simpl; auto. intros w H. rewrite IHts; [apply closed_step; auto|]. unfold closed. rewrite closed_step; auto.
Qed.
Lemma isc_step w tk : is_closed w = true -> is_closed (step w tk) = true.
Proof.
  intros H. destruct tk as [t k]. apply step_cases; auto.
  - intros. apply (outer_isc shuts t c w); auto.
  - intros. apply (inner_isc shuts k i w); auto.
  - intros n El. destruct n as [[]|x|x]; auto.
    destruct (off_same shuts x w) as (_ & _ & _ & _ & _ & _ & _ & _ & _ & Q). change (is_closed (off shuts x w) = true). congruence.
Qed.
Lemma poison_step w tk : v_lock w = Poisoned -> v_lock (step w tk) = Poisoned.
Proof.
  intros H. destruct tk as [t k]. apply step_cases; auto; try (intros; congruence).
  intros c cs _ _. simpl. destruct (outer_lock shuts t c w) as [->|(Q & _)]; auto. congruence.
Qed.
Lemma usable_back w tk : usable (step w tk) -> usable w.
Proof.
  intros [A B]. split.
  - destruct (is_closed w) eqn:Q; auto. apply isc_step with (tk := tk) in Q. congruence.
  - intros Q. apply B. apply poison_step; auto.
Qed.
Lemma had_step w tk s : v_had w s = true -> v_had (step w tk) s = true.
Proof.
  intros H. destruct tk as [t k]. apply step_cases; auto.
  - intros c cs _ _. simpl. destruct c as [[]| | | | | | |x|x| | |[| |x]|[| |x]| |]; simpl; unfold defer; cases; tellr; auto.
    unfold upd. destruct (s =? s0); auto.
  - intros i l' now _ _. simpl. destruct (inner_used shuts k i w) as (_ & -> & _). auto.
  - intros n _. simpl. destruct n as [[]|x|x]; simpl; auto. destruct (off_r shuts x w) as (_ & _ & _ & _ & -> & _). auto.
Qed.

(** *** What a thread carries. *)
Definition quiet (c : cmd) : Prop := match c with KTry _ | KDefer _ => False | _ => True end.
Definition adds (s : nat) (c : cmd) : Prop := c = KTry (ADD s) \/ c = KDefer (ADD s).
Definition stack_ok (l : list cmd) : Prop :=
  match l with [] => True | c :: cs => Forall quiet cs /\ forall s, adds s c -> In (KHave _ _ s) cs end.
Arguments stack_ok : simpl never.
Record carry_ok (w : st) : Prop := {
  ca_stack : forall t, stack_ok (nth t (v_thr w) []);
  ca_now : forall t l s, v_lock w = Held t l (Some (ADD s)) -> In (KHave _ _ s) (nth t (v_thr w) [])
}.
Lemma quiet_stack l : Forall quiet l -> stack_ok l.
Proof. intros H. destruct H as [|c l Hc H]; unfold stack_ok; auto. split; auto. intros s [->| ->]; destruct Hc. Qed.
Lemma outer_stack t c cs w : stack_ok (c :: cs) -> stack_ok (fst (outer t c w) ++ cs).
Proof.
  intros [Hq Ha].
  assert (G : forall l, Forall quiet l -> stack_ok (l ++ cs)) by (intros; apply quiet_stack, Forall_app; auto).
  assert (G2 : forall c' l, Forall quiet l -> (forall s, adds s c' -> In (KHave _ _ s) (l ++ cs)) -> stack_ok (c' :: l ++ cs)).
  { intros c' l H1 H2. split; auto. apply Forall_app; auto. }
  destruct c as [[]| | | | | | |x|x| | |n|n| |]; simpl; unfold defer; cases;
    try (solve [apply (G []); repeat constructor]); try (solve [apply (G [_]); repeat constructor]);
    try (solve [apply (G [_; _]); repeat constructor]);
    try (apply (G2 _ []); [constructor|]; intros ? [Q|Q]; try discriminate; injection Q as ->).
  - apply (G2 _ [_; _]); [repeat constructor|]. intros s [Q|Q]; try discriminate. injection Q as ->. simpl. auto.
  - apply Ha. left. auto.
  - apply Ha. left. auto.
Qed.
Lemma carry_step w tk : carry_ok w -> carry_ok (step w tk).
Proof.
  intros H. destruct tk as [t k]. apply step_cases; auto.
  - intros c cs En Hl. pose proof (ca_stack H t) as Ht. rewrite En in Ht. constructor.
    + intros u. simpl. destruct (Nat.eq_dec t u) as [<-|Hn].
      * rewrite nth_set_same by (apply nth_cons_lt in En; auto). apply outer_stack; auto.
      * rewrite nth_set_other by auto. apply (ca_stack H).
    + intros u l s. simpl. destruct (outer_lock shuts t c w) as [->|(_ & now & -> & Hc)].
      * intros Q. rewrite nth_set_other; [apply (ca_now H Q)|]. intros <-. apply (Hl _ _ Q).
      * intros Q; injection Q as <- <- ->. destruct Hc as [(n' & -> & Q)|[_ Q]]; [|discriminate]. injection Q as <-.
        rewrite nth_set_same by (apply nth_cons_lt in En; auto). apply in_or_app. right. apply Ht. left. auto.
  - intros i l' now El _. constructor; [simpl; rewrite inner_thr; apply (ca_stack H)|].
    intros u l s. simpl. rewrite inner_thr. intros Q; injection Q as <- <- ->. apply (ca_now H El).
  - intros n El. constructor; [simpl; rewrite now_thr; apply (ca_stack H)|discriminate].
  - intros l' now El. constructor; [|discriminate]. intros u. simpl. destruct (nth_set t u [] [] (v_thr w)) as [->| ->]; [exact I|apply (ca_stack H)].
  - intros El. constructor; [apply (ca_stack H)|discriminate].
Qed.
Lemma have_used (w : st) t s : inv_B w -> In (KHave _ _ s) (nth t (v_thr w) []) -> v_had w s = false /\ total (fB s) (v_thr w) = 1.
Proof.
  intros HB Hi. specialize (HB s). pose proof (total_in (fB s) t (v_thr w) _ Hi) as Q. simpl in Q. rewrite Nat.eqb_refl in Q. simpl in Q.
  destruct (v_had w s), (v_used w s); simpl in HB; lia || (split; auto; lia).
Qed.
(** Nobody adds twice. *)
Lemma had_no_add (w : st) s : inv_B w -> carry_ok w -> v_had w s = true ->
  (forall t c cs, nth t (v_thr w) [] = c :: cs -> ~ adds s c) /\ (forall t l, v_lock w <> Held t l (Some (ADD s))).
Proof.
  intros HB HC Hh. split.
  - intros t c cs En Ha. pose proof (ca_stack HC t) as Q. rewrite En in Q. destruct Q as [_ Q]. specialize (Q s Ha).
    destruct (have_used t s HB) as [F _]; [rewrite En; right; auto|congruence].
  - intros t l El. destruct (have_used t s HB) as [F _]; [apply (ca_now HC El)|congruence].
Qed.

(** *** Arrived. *)
Definition arrived (s : nat) (w : st) : Prop := closed s w = true \/ v_from w s <> None \/ In (ADD s) (wait w).
Definition coming (s : nat) (w : st) : Prop :=
  arrived s w \/ exists t c cs, nth t (v_thr w) [] = c :: cs /\ adds s c /\ In (KHave _ _ s) cs.
Record arr_ok (w : st) : Prop := {
  ar_had : forall s, v_had w s = true -> arrived s w;
  ar_have : forall s t, In (KHave _ _ s) (nth t (v_thr w) []) ->
    arrived s w \/ exists c cs, nth t (v_thr w) [] = c :: cs /\ adds s c
}.
Lemma arrived_outer t c cs w s : arrived s w -> arrived s (by_outer shuts t c cs w).
Proof.
  intros [H|[H|H]]; unfold arrived.
  - left. unfold closed. simpl. rewrite outer_closed; auto.
  - right. left. simpl. rewrite (proj1 (proj2 (outer_table shuts t c w))). auto.
  - right. right. destruct (outer_wait shuts t c cs w) as [(-> & _)|[(n & _ & _ & ->)|(n & a & b & _ & _ & Ea & -> & _)]]; auto.
    + apply in_or_app; auto.
    + rewrite Ea in H. apply in_app_or in H as [H|H]; apply in_or_app; simpl; auto.
Qed.
Lemma arrived_inner t k i l' now w s : v_lock w = Held t (i :: l') now -> shape_ok w -> arrived s w -> arrived s (by_inner shuts t k i l' now w).
Proof.
  intros El Hs [H|[H|H]]; unfold arrived.
  - left. unfold closed. simpl. rewrite inner_closed; auto.
  - right. left. simpl. destruct (inner_from shuts k i w s) as [->|[-> _]]; auto. discriminate.
  - rewrite (inner_waits shuts k El Hs) in H. apply in_app_or in H as [H|H]; auto.
    destruct i as [|[|n ns]| | | |]; try (destruct H; fail). destruct H as [->|[]]. 
    destruct (closed s w) eqn:Q; [left; unfold closed; simpl; rewrite Q; exact Q|]. unfold closed. simpl. rewrite Q. destruct (v_flag w); simpl.
    + left. rewrite (tell_open shuts s Uns w Q). auto.
    + right. left. unfold upd. rewrite Nat.eqb_refl. discriminate.
Qed.
Lemma arrived_now t n w s : v_lock w = Held t [] (Some n) -> arrived s w -> arrived s (by_now shuts t n w).
Proof.
  intros El [H|[H|H]]; unfold arrived.
  - left. unfold closed. simpl. rewrite now_closed; auto.
  - right. left. destruct n as [[]|x|x]; simpl; auto.
    + destruct (off_r shuts x w) as (_ & _ & -> & _). auto.
    + unfold upd. destruct (s =? x); auto. discriminate.
  - rewrite (now_waits shuts w El) in H. destruct H as [->|H]; auto. right. left. simpl. unfold upd. rewrite Nat.eqb_refl. discriminate.
Qed.
Lemma arrived_panic t l' now w s : v_lock w = Held t (IQueue _ _ max_depth :: l') now -> shape_ok w -> now <> Some (ADD s) ->
  arrived s w -> arrived s (by_panic t w).
Proof.
  intros El Hs Hn [H|[H|H]]; unfold arrived; auto. right. right. rewrite (panic_waits shuts El Hs) in H.
  apply in_app_or in H as [H|H]; auto. destruct now; simpl in H; [destruct H as [->|[]]; congruence|destruct H].
Qed.

Lemma outer_have t c w s : In (KHave _ _ s) (fst (outer t c w)) ->
  closed s (snd (outer t c w)) = true \/ exists cs', fst (outer t c w) = KTry (ADD s) :: cs'.
Proof.
  destruct c as [[]| | | | | | |x|x| | |n|n| |]; simpl; unfold defer; cases; intros H; try tauto;
    repeat (destruct H as [H|H]; [try discriminate|]); try tauto; injection H as ->.
  - left. destruct (closed s w) eqn:Q; [unfold closed; rewrite (tell_closed shuts s s Uns w Q); auto|unfold closed; rewrite (tell_open shuts s Uns w Q); auto].
  - right. eauto.
Qed.
Lemma outer_had t c w s : v_had (snd (outer t c w)) s = true -> v_had w s = true \/ c = KHave _ _ s.
Proof.
  destruct c as [[]| | | | | | |x|x| | |[]|[]| |]; simpl; unfold defer; cases; tellr; auto.
  unfold upd. destruct (Nat.eqb_spec s s0) as [->|]; auto.
Qed.

Lemma arr_step w tk : shape_ok w -> inv_B w -> carry_ok w -> arr_ok w -> arr_ok (step w tk).
Proof.
  intros Hs HB HC H. destruct tk as [t k]. apply step_cases; auto.
  - intros c cs En Hl. pose proof (ca_stack HC t) as Hst. rewrite En in Hst. destruct Hst as [Hq Ha].
    constructor.
    + intros s. simpl v_had. intros Hh. apply arrived_outer. apply outer_had in Hh as [Hh| ->]; [apply (ar_had H); auto|].
      destruct (ar_have H s t) as [|(c' & cs' & Q & [F|F])]; [rewrite En; left; auto|auto| |]; rewrite En in Q; injection Q as <- <-; discriminate.
    + intros s u. change (v_thr (by_outer shuts t c cs w)) with (set_nth t (fst (outer t c w) ++ cs) (v_thr w)).
      destruct (Nat.eq_dec t u) as [<-|Hn].
      * rewrite nth_set_same by (apply nth_cons_lt in En; auto). intros Hi. apply in_app_or in Hi as [Hi|Hi].
        -- apply outer_have in Hi as [Hi|(cs' & Q)]; [left; left; exact Hi|]. right. rewrite Q. simpl. exists (KTry (ADD s)). unfold adds. eauto.
        -- destruct (ar_have H s t) as [Q|(c' & cs' & Q & Hc)]; [rewrite En; right; auto|left; apply arrived_outer; auto|].
           rewrite En in Q. injection Q as <- <-.
           assert (Hf : forall n, c = KTry n \/ c = KDefer n -> n = ADD s -> arrived s (by_outer shuts t c cs w) \/
               exists c' cs'', fst (outer t c w) ++ cs = c' :: cs'' /\ adds s c').
           { intros n Hcn ->. destruct (outer_wait shuts t c cs w) as [(E1 & E2 & E3)|[(n & -> & E2 & E1)|(n & a & b & -> & Ef & Ea & Eb & Hb)]].
             - destruct Hcn as [->| ->].
               + right. specialize (E2 _ eq_refl). simpl. destruct (v_lock w); try congruence; simpl; exists (KDefer (ADD s)); unfold adds; eauto.
               + left. left. specialize (E3 _ eq_refl). unfold closed. simpl. unfold defer. rewrite E3.
                 destruct (closed s w) eqn:Qc; [rewrite (tell_closed shuts s s Uns w Qc); auto|rewrite (tell_open shuts s Uns w Qc); auto].
             - destruct Hcn as [Q|Q]; [injection Q as ->|discriminate]. left. right. right. rewrite E1. apply in_or_app. simpl. auto.
             - destruct Hcn as [Q|Q]; [discriminate|injection Q as ->]. left. right. right. rewrite Eb. apply in_or_app. simpl. auto. }
           destruct Hc as [Hc|Hc]; apply (Hf (ADD s)); auto.
      * rewrite nth_set_other by auto. intros Hi. destruct (ar_have H s u Hi) as [Q|Q]; auto. left. apply arrived_outer; auto.
  - intros i l' now El _. constructor.
    + intros s. simpl v_had. rewrite (proj1 (proj2 (inner_used shuts k i w))). intros Hh. apply arrived_inner; auto. apply (ar_had H); auto.
    + intros s u. simpl v_thr. rewrite inner_thr. intros Hi. destruct (ar_have H s u Hi) as [Q|Q]; auto. left. apply arrived_inner; auto.
  - intros n El. constructor.
    + intros s. simpl v_had. intros Hh. apply arrived_now; auto. apply (ar_had H).
      destruct n as [[]|x|x]; simpl in Hh; auto. destruct (off_r shuts x w) as (_ & _ & _ & _ & Q & _). rewrite Q in Hh; auto.
    + intros s u. simpl v_thr. rewrite now_thr. intros Hi. destruct (ar_have H s u Hi) as [Q|Q]; auto. left. apply arrived_now; auto.
  - intros l' now El. constructor.
    + intros s Hh. apply (arrived_panic El Hs); [|apply (ar_had H); auto]. intros ->.
      apply (proj2 (had_no_add s HB HC Hh)) in El. auto.
    + intros s u. simpl v_thr. destruct (Nat.eq_dec t u) as [<-|Hn].
      * intros Hi. destruct (Nat.lt_ge_cases t (length (v_thr w))) as [L|L].
        -- rewrite nth_set_same in Hi by auto. destruct Hi.
        -- rewrite set_nth_over, nth_overflow in Hi by auto. destruct Hi.
      * rewrite nth_set_other by auto. intros Hi. destruct (ar_have H s u Hi) as [Q|Q]; auto. left. apply (arrived_panic El Hs); auto.
        intros ->. destruct (have_used u s HB Hi) as [_ T].
        pose proof (ca_now HC El) as Hi2.
        destruct (nth t (v_thr w) []) as [|c cs] eqn:En; [destruct Hi2|].
        pose proof (total_set (fB s) t [] (v_thr w) En) as TS.
        assert (F1 : 1 <= total (fB s) (set_nth t [] (v_thr w))).
        { pose proof (total_in (fB s) u (set_nth t [] (v_thr w)) (KHave _ _ s)) as G. rewrite nth_set_other in G by auto.
          specialize (G Hi). simpl in G. rewrite Nat.eqb_refl in G. exact G. }
        pose proof (sum_in (fB s) _ _ Hi2) as F2. rewrite sum_cons in F2. simpl (fB s (KHave _ _ s)) in F2. rewrite Nat.eqb_refl in F2. rewrite sum_nil in TS. simpl in F2. lia.
  - intros El. constructor.
    + intros s Hh. destruct (ar_had H s Hh) as [Q|[Q|Q]]; unfold arrived; auto. rewrite (unlock_waits w El). auto.
    + intros s u Hi. destruct (ar_have H s u Hi) as [[Q|[Q|Q]]|Q]; unfold arrived; auto. rewrite (unlock_waits w El). auto.
Qed.

(** All of it. *)
Record all_ok (w : st) : Prop := {
  a_base : base_ok w; a_own : own_ok w; a_carry : carry_ok w; a_arr : arr_ok w
}.
Lemma all_step w tk : all_ok w -> all_ok (step w tk).
Proof.
  intros [Hb Ho Hc Ha]. constructor; [apply base_step|apply own_step|apply carry_step|apply arr_step]; auto; apply Hb.
Qed.
Lemma all_run ts w : all_ok w -> all_ok (run shuts ts w).
Proof. revert w. induction ts; simpl; auto. intros w H. apply IHts, all_step, H. Qed.
Lemma start_ops progs t : exists p, nth t (v_thr (start progs)) [] = map (@KOp V E) p.
Proof. exists (nth t progs []). simpl. rewrite <- (map_nth (map (@KOp V E))). auto. Qed.
Lemma all_start progs : all_ok (start progs).
Proof.
  assert (Hop : forall t (P : cmd -> Prop), (forall o, P (KOp o)) -> Forall P (nth t (v_thr (start progs)) [])).
  { intros t P H. destruct (start_ops progs t) as (p & ->). induction p; constructor; auto. }
  constructor.
  - apply (base_start shuts).
  - constructor; [|discriminate]. intros t. apply Hop. simpl. auto.
  - constructor; [|discriminate]. intros t. apply quiet_stack, Hop. simpl. auto.
  - constructor; [discriminate|]. intros s t Hi. assert (Q := Hop t (fun c => c <> KHave _ _ s) ltac:(discriminate)).
    rewrite Forall_forall in Q. apply Q in Hi. congruence.
Qed.
Lemma all_reach ts progs : all_ok (run shuts ts (start progs)).
Proof. apply all_run, all_start. Qed.
End Arrive.
