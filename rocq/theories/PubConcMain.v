(** The publish subject used by several threads: what follows for whole executions. *)
From Verif Require Import Base SubscrModel PubConcModel PubConcSpec PubConcProofs PubConcTold PubConcTable PubConcOrder PubConcArrive PubConcHear PubConcEnd.
Set Implicit Arguments.

Section Main.
Variables V E : Type.
Notation call := (ncall (item V) E).
Notation st := (st V E).
Variable shuts : nat -> list call -> bool.
Notation run := (run shuts).

Lemma valk_start progs t : valk (nth t (v_thr (@start V E progs)) []) = pushes (nth t progs []).
Proof.
  simpl. change (@nil (cmd V E)) with (map (@KOp V E) []). rewrite map_nth. generalize (nth t progs []). intros p.
  unfold valk, pushes. induction p as [|[] p IH]; simpl; auto. f_equal. auto.
Qed.
Lemma line_start progs t : line t (@start V E progs) = pushes (nth t progs []).
Proof. unfold line. rewrite valk_start. auto. Qed.
Lemma line_run ts w t : all_ok w ->
  sub (line t (run ts w)) (line t w) /\ (usable (run ts w) -> line t (run ts w) = line t w).
Proof.
  revert w. induction ts as [|a ts IH]; intros w H; [split; auto; apply sub_refl|]. simpl.
  destruct (IH (step shuts w a) (all_step shuts a H)) as [S1 E1].
  destruct (line_step shuts a t (b_shape (a_base H)) (a_own H)) as [S2 E2]. split.
  - eapply sub_trans; eauto.
  - intros U. rewrite E1; auto. apply E2. apply usable_back_run in U. auto.
Qed.
Lemma idle_wait (w : st) : v_lock w = Free -> wait w = v_q w.
Proof. intros H. unfold wait. rewrite H. auto. Qed.
Lemma free_owing (w : st) s : v_lock w = Free -> owing s w = [].
Proof. intros H. unfold owing, telling. rewrite H. auto. Qed.

Theorem one_order progs ts : let w := run ts (start progs) in exists G,
  (forall s, let d := v_dest w s in
    (exists c, ends c = true /\ d_told d = [c] /\ d_closed d = true) \/
    exists x G1 G2 e, G = G1 ++ x ++ G2 /\ d_told d = x ++ e /\ (e = [] \/ (e = [Uns] /\ d_closed d = true)) /\
      (d_closed d = false -> v_lock w = Free -> x = [] \/ G2 = [])) /\
  (forall t, sub (vals t G) (pushes (nth t progs []))) /\
  (idle w -> usable w -> forall t, vals t G ++ valn t (v_q w) = pushes (nth t progs [])).
Proof.
  intros w. pose proof (all_reach shuts ts progs) as H. fold w in H. exists (v_log w). split; [|split].
  - intros s d. destruct (told_log shuts s (a_base H)) as [Q|[(c & Q & F & _)|(i & _ & x & y & e & E1 & E2 & E3 & E4)]].
    + right. exists [], [], (v_log w), []. repeat split; auto.
    + left. exists c. unfold d. rewrite F. auto.
    + right. exists x, (firstn i (v_log w)), y, e. rewrite <- E1, firstn_skipn. repeat split; auto.
      intros Hc Hf. right. rewrite (E4 Hc). apply free_owing; auto.
  - intros t. destruct (@line_run ts (start progs) t (all_start shuts progs)) as [S1 _]. fold w in S1. rewrite line_start in S1.
    eapply sub_trans; [|exact S1]. unfold line. rewrite <- (app_nil_r (vals t (v_log w))) at 1. apply sub_app; [apply sub_refl|apply sub_none].
  - intros [Hf Hi] Hu t. destruct (@line_run ts (start progs) t (all_start shuts progs)) as [_ S1]. fold w in S1. rewrite line_start in S1.
    rewrite <- S1; auto. unfold line. rewrite Hi, (idle_wait w Hf). simpl. rewrite app_nil_r. auto.
Qed.

Theorem well_formed progs ts s : proper (shuts s) (v_dest (run ts (start progs)) s).
Proof. apply proper_run, proper_start. Qed.

Lemma after_none (s : nat) : @after V E s [] = [].
Proof. auto. Qed.
Theorem hears_all progs ts1 ts2 s : let w1 := run ts1 (start progs) in let w2 := run ts2 w1 in
  v_had w1 s = true -> idle w2 -> usable w2 -> v_q w2 = [] -> d_closed (v_dest w2 s) = false ->
  forall t, exists x, vals t (d_told (v_dest w2 s)) = x ++ valk (nth t (v_thr w1) []).
Proof.
  intros w1 w2 Hh [Hf Hi] Hu Hq Hc t. pose proof (all_reach shuts ts1 progs) as H1. fold w1 in H1.
  pose proof (all_run shuts ts2 H1) as H2. fold w2 in H2.
  pose proof (@sline_run V E shuts ts2 w1 s t H1 Hh Hu Hc) as Q. fold w2 in Q. unfold sline in Q. rewrite Hi in Q.
  assert (Hw : wait w2 = []) by (rewrite idle_wait; auto).
  assert (Ht : vals t (tail_log s w2) = vals t (d_told (v_dest w2 s)) /\ tail_wait s w2 = []).
  { unfold tail_log, tail_wait. rewrite Hw. destruct (told_log shuts s (a_base H2)) as [F|[(c & _ & F & _)|(i & F & x & y & e & E1 & E2 & E3 & E4)]].
    - destruct (v_from w2 s) as [i|] eqn:Ef; [|rewrite F; auto]. rewrite F. split; auto.
      destruct (to_heard (b_table (a_base H2)) s Ef) as [_ G]. unfold closed in G. rewrite Hc in G. rewrite F, free_owing in G; auto. rewrite <- G. auto.
    - rewrite F in Hc. discriminate.
    - rewrite F. split; auto. rewrite E1, E2, E4, free_owing; auto. destruct E3 as [->|[_ E3]]; [rewrite !app_nil_r; auto|]. unfold closed in E3. congruence. }
  destruct Ht as [<- Ht]. rewrite Ht in Q. simpl in Q. rewrite app_nil_r in Q. rewrite Q, app_assoc. eauto.
Qed.

Theorem leaves progs ts s : let w := run ts (start progs) in
  v_left w s = true -> idle w -> usable w -> v_q w = [] -> d_closed (v_dest w s) = true.
Proof.
  intros w Hl [Hf Hi] Hu Hq. pose proof (leave_run shuts ts (all_start shuts progs) (leave_start (V := V) (E := E) progs)) as H. fold w in H.
  destruct (lv_left H s Hl Hu) as [Q|[(t & c & Q & _)|Q]]; auto.
  - rewrite Hi in Q. destruct Q.
  - rewrite (idle_wait w Hf), Hq in Q. destruct Q.
Qed.

Theorem ended progs ts1 ts2 s : let w1 := run ts1 (start progs) in let w2 := run ts2 w1 in
  v_had w1 s = true -> is_closed w1 = false -> idle w2 -> is_closed w2 = true -> v_q w2 = [] -> d_closed (v_dest w2 s) = true.
Proof.
  intros w1 w2 Hh Ho [Hf Hi] Hc Hq. pose proof (all_reach shuts ts1 progs) as H1. fold w1 in H1.
  pose proof (open_run shuts ts1 (all_start shuts progs) (open_start (V := V) (E := E) progs)) as Hop. fold w1 in Hop.
  pose proof (end_run shuts ts2 H1 Hh (end_begin s Hop Ho)) as H. fold w2 in H.
  destruct (e_isc H Hc) as [Q|[(t & c & Q & _)|[(n & Q & _)|[_ (t & l & now & Q & _)]]]]; auto; try congruence.
  - rewrite Hi in Q. destruct Q.
  - rewrite (idle_wait w2 Hf), Hq in Q. destruct Q.
Qed.

Theorem few progs ts : length (concat progs) <= 10 -> v_lock (run ts (@start V E progs)) <> Poisoned.
Proof. intros H. apply unpoisoned_run; [|discriminate]. apply room_start. rewrite load_start. exact H. Qed.
End Main.
