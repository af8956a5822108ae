(** What a PrintObserver prints behind one operator whose source looks at [is_closed]. *)
From Verif Require Import Base SubscrModel OpsModel OpsQuiet ObsModel.
Set Implicit Arguments.

(** The lines (the mark of the drop is none). *)
Definition lines {O F} (w : list (ev (line O F))) : list (line O F) :=
  flat_map (fun e => match e with EObs LDropped => [] | EObs l => [l] | _ => [] end) w.

Definition ending {O F} (l : list (line O F)) : Prop :=
  l = [] \/ l = [LUnsubscribed] \/ l = [LCompleted; LUnsubscribed] \/ exists e, l = [LError e; LUnsubscribed].
Definition neat {O F} (l : list (line O F)) : Prop := exists vs t, l = map LNext vs ++ t /\ ending t.
Definition PInv {O F} (d : sdata) (l : list (line O F)) : Prop :=
  if sd_closed d then neat l else exists vs, l = map LNext vs.

Lemma lines_app O F (a b : list (ev (line O F))) : lines (a ++ b) = lines a ++ lines b.
Proof. apply flat_map_app. Qed.
Lemma lines_td O F (l : list nat) : lines (O := O) (F := F) (map ETd l) = [].
Proof. induction l; auto. Qed.
Lemma PInv_neat O F d (l : list (line O F)) : PInv d l -> neat l.
Proof.
  unfold PInv. destruct (sd_closed d); [auto|]. intros [vs ->]. exists vs, []. rewrite app_nil_r. split; [reflexivity|]. left. reflexivity.
Qed.

Section Print.
  Context {I E O F : Type}.
  Variable T : trans I E O F.
  Notation D := (print_observer O F).

  Lemma pexec_cons : forall (d : sdata) a l, exec_acts D d (a :: l) =
    (fst (exec_acts D (fst (exec_act D d a)) l), snd (exec_act D d a) ++ snd (exec_acts D (fst (exec_act D d a)) l)).
  Proof.
    intros. cbn [exec_acts]. destruct (exec_act D d a) as [d1 w1]. cbn [fst snd].
    destruct (exec_acts D d1 l). reflexivity.
  Qed.
  Lemma pcalm_closed : forall l d, calm l = true -> sd_closed d = true -> sd_closed (fst (exec_acts D d l)) = true /\ lines (snd (exec_acts D d l)) = [].
  Proof.
    induction l as [|a l IH]; intros d Hc Hd; [auto|]. cbn in Hc. apply andb_prop in Hc as [Ha Hc]. rewrite pexec_cons. cbn [fst snd]. rewrite lines_app.
    assert (K : fst (exec_act D d a) = d /\ lines (snd (exec_act D d a)) = []).
    { destruct a as [[]|n|n]; try discriminate; cbn [exec_act closed print_observer step]; unfold print_unsubscribe; rewrite ?Hd; auto. }
    destruct K as [K1 K2]. rewrite K1, K2. apply IH; auto.
  Qed.
  (** One call on an open one. *)
  Lemma popen : forall n d ls, sd_closed d = false -> (exists vs, ls = map LNext vs) ->
    PInv (fst (step D d (CN n))) (ls ++ lines (snd (step D d (CN n)))) /\ (is_next n = true -> fst (step D d (CN n)) = d) /\ (is_next n = false -> sd_closed (fst (step D d (CN n))) = true).
  Proof.
    intros n d ls Hd [vs ->]. destruct n as [o|e| |]; cbn [step print_observer]; unfold print_unsubscribe, sd_unsubscribe; rewrite ?Hd; cbn [fst snd is_next]; (split; [|split; [intros; congruence|intros; congruence || reflexivity]]);
      unfold PInv; cbn [sd_closed]; rewrite ?Hd.
    - exists (vs ++ [o]). rewrite map_app. reflexivity.
    - exists vs, [LError e; LUnsubscribed]. split; [|right; right; right; exists e; reflexivity]. f_equal. cbn. f_equal. unfold lines in *. fold (lines (O := O) (F := F)). rewrite flat_map_app. fold (lines (O := O) (F := F) (map ETd (sd_fin d))). rewrite lines_td. reflexivity.
    - exists vs, [LCompleted; LUnsubscribed]. split; [|right; right; left; reflexivity]. f_equal. cbn. f_equal. rewrite flat_map_app. fold (lines (O := O) (F := F) (map ETd (sd_fin d))). rewrite lines_td. reflexivity.
    - exists vs, [LUnsubscribed]. split; [|right; left; reflexivity]. f_equal. rewrite lines_app, lines_td. reflexivity.
  Qed.
  Lemma pnice_open : forall l d ls, nice l = true -> sd_closed d = false -> (exists vs, ls = map LNext vs) ->
    PInv (fst (exec_acts D d l)) (ls ++ lines (snd (exec_acts D d l))).
  Proof.
    induction l as [|a l IH]; intros d ls Hc Hd Ho; [cbn; rewrite app_nil_r; unfold PInv; rewrite Hd; exact Ho|].
    rewrite pexec_cons. cbn [fst snd]. rewrite lines_app, app_assoc.
    assert (K : forall n, (is_next n = true -> nice l = true) -> (is_next n = false -> calm l = true) ->
      PInv (fst (exec_acts D (fst (step D d (CN n))) l)) ((ls ++ lines (snd (step D d (CN n)))) ++ lines (snd (exec_acts D (fst (step D d (CN n))) l)))).
    { intros n Hn Hcl. destruct (popen n d Hd Ho) as (H1 & H2 & H3). destruct (is_next n) eqn:En.
      - rewrite (H2 eq_refl) in *. apply IH; auto. unfold PInv in H1. rewrite Hd in H1. exact H1.
      - destruct (pcalm_closed l _ (Hcl eq_refl) (H3 eq_refl)) as [C1 C2]. rewrite C2, app_nil_r. unfold PInv in *. rewrite (H3 eq_refl) in H1. rewrite C1. exact H1. }
    destruct a as [n|n|n]; cbn [exec_act]; [| |cbn [fst snd lines flat_map]; rewrite app_nil_r; apply IH; auto].
    - apply K; destruct n; cbn [nice is_next] in *; auto; discriminate.
    - change (closed D d) with (sd_closed d). rewrite Hd. apply K; destruct n; cbn [nice is_next] in *; auto; discriminate.
  Qed.
  Lemma puns_any : forall l d ls, only_uns l = true -> PInv d ls -> PInv (fst (exec_acts D d l)) (ls ++ lines (snd (exec_acts D d l))).
  Proof.
    induction l as [|a l IH]; intros d ls Hc Ho; [cbn; rewrite app_nil_r; auto|].
    cbn in Hc. apply andb_prop in Hc as [Ha Hc]. rewrite pexec_cons. cbn [fst snd]. rewrite lines_app, app_assoc.
    destruct a as [[]| |]; try discriminate. apply IH; auto. cbn [exec_act]. destruct (sd_closed d) eqn:Hd.
    - cbn [step print_observer]. unfold print_unsubscribe. rewrite Hd. cbn. rewrite app_nil_r. exact Ho.
    - unfold PInv in Ho. rewrite Hd in Ho. apply popen; assumption.
  Qed.
  Lemma pstep_any : forall d c ls, PInv d ls -> match c with CN Uns | CAdd _ | CDrop => True | CN _ => sd_closed d = false end ->
    PInv (fst (step D d c)) (ls ++ lines (snd (step D d c))).
  Proof.
    intros d [n|t|] ls Hi Hc.
    - destruct (sd_closed d) eqn:Hd; [|unfold PInv in Hi; rewrite Hd in Hi; apply popen; assumption].
      destruct n; try discriminate. cbn [step print_observer]. unfold print_unsubscribe. rewrite Hd. cbn. rewrite app_nil_r. exact Hi.
    - cbn [step print_observer]. unfold sd_add, PInv in *. destruct (sd_closed d) eqn:Hd.
      + cbn [fst snd]. rewrite Hd, lines_td, app_nil_r. exact Hi.
      + destruct t; cbn [fst snd sd_closed lines flat_map]; rewrite app_nil_r; exact Hi.
    - cbn [step print_observer]. unfold sd_unsubscribe. apply PInv_neat in Hi. destruct (sd_closed d) eqn:Hd; unfold PInv; cbn [fst snd sd_closed]; rewrite ?Hd, lines_app, ?lines_td; cbn; rewrite app_nil_r; exact Hi.
  Qed.

  Hypothesis P : polite T.
  Lemma ppolite_step : forall q d c ls, PInv d ls ->
    match c with CN Uns | CAdd _ | CDrop => True | CN _ => oclosed T q || sd_closed d = false end ->
    PInv (snd (fst (step (denote T D) (q, d) c))) (ls ++ lines (snd (step (denote T D) (q, d) c))).
  Proof.
    intros q d c ls Hi Hc. destruct c as [n|t|].
    - cbn [step denote den_step den_n].
      assert (H : forall r : oq T * list (act O F),
        PInv (fst (exec_acts D d (snd r))) (ls ++ lines (snd (exec_acts D d (snd r)))) ->
        PInv (snd (fst (let '(q', l) := r in let '(d', w) := exec_acts D d l in ((q', d'), w))))
            (ls ++ lines (snd (let '(q', l) := r in let '(d', w) := exec_acts D d l in ((q', d'), w))))).
      { intros [q' l]. cbn [snd]. destruct (exec_acts D d l). auto. }
      apply H. clear H. change (closed D d) with (sd_closed d).
      destruct n; try (apply orb_false_iff in Hc as [Hq Hd]; rewrite Hd; unfold PInv in Hi; rewrite Hd in Hi; apply pnice_open; [|exact Hd|exact Hi]).
      + apply (p_next P), Hq.
      + apply (p_error P), Hq.
      + apply (p_complete P), Hq.
      + apply puns_any; [apply (p_unsub P)|exact Hi].
    - cbn [step denote den_step fst snd]. pose proof (@pstep_any d (CAdd t) ls Hi Logic.I) as H. destruct (step D d (CAdd t)). exact H.
    - cbn [step denote den_step den_drop fst snd]. pose proof (p_drop P q (closed D d)) as Hd.
      destruct (on_drop T q (closed D d)) as [q' l]. cbn [snd] in Hd. pose proof (@puns_any l d ls Hd Hi) as H.
      destruct (exec_acts D d l) as [d1 w]. cbn [fst snd] in *. pose proof (@pstep_any d1 CDrop _ H Logic.I) as H2.
      destruct (step D d1 CDrop). cbn [fst snd] in *. rewrite lines_app, app_assoc. exact H2.
  Qed.
  Lemma ppolite_run : forall cs q d ls, PInv d ls -> heeds (denote T D) (q, d) cs ->
    neat (ls ++ lines (snd (run_from (denote T D) (q, d) cs))).
  Proof.
    induction cs as [|c cs IH]; intros q d ls Hi Hh; [cbn; rewrite app_nil_r; eapply PInv_neat, Hi|].
    destruct Hh as [Hc Hh]. pose proof (@ppolite_step q d c ls Hi Hc) as Hs. rewrite run_cons, lines_app, app_assoc.
    destruct (fst (step (denote T D) (q, d) c)) as [q1 d1]. apply IH; assumption.
  Qed.
  Theorem ppolite_neat : forall cs, heeds (denote T D) (s0 (denote T D)) cs -> neat (lines (run (denote T D) cs)).
  Proof.
    intros cs Hh. assert (Hi : PInv (fst (exec_acts D (s0 D) (o_ctor T))) (lines (snd (exec_acts D (s0 D) (o_ctor T))))).
    { apply (@pnice_open (o_ctor T) (s0 D) []); [apply (p_ctor P)|reflexivity|exists []; reflexivity]. }
    unfold run. cbn [denote w0]. rewrite lines_app. apply ppolite_run; [|exact Hh]. exact Hi.
  Qed.
End Print.

Lemma heeds_print : forall O F cs d (ls : list (line O F)), PInv d ls -> heeds (print_observer O F) d cs ->
  neat (ls ++ lines (snd (run_from (print_observer O F) d cs))).
Proof.
  intros O F. induction cs as [|c cs IH]; intros d ls Hi Hh; [cbn; rewrite app_nil_r; eapply PInv_neat, Hi|].
  destruct Hh as [Hc Hh]. rewrite run_cons, lines_app, app_assoc. apply IH; [|exact Hh].
  apply pstep_any; [exact Hi|]. destruct c as [[]|t|]; exact Hc.
Qed.
Theorem plain_neat : forall I E O F (o : oper I E O F) cs, plain o = true ->
  heeds (op_sub o (print_observer O F)) (s0 (op_sub o (print_observer O F))) cs -> neat (lines (run (op_sub o (print_observer O F)) cs)).
Proof.
  intros I E O F o cs Hp. destruct o; try discriminate; cbn [op_sub];
    try (apply ppolite_neat; clear Hp; polite_tac; fail).
  - apply ppolite_neat. clear Hp. constructor; cbn [t_buffer_count simple_trans o_ctor on_next on_error on_complete on_unsub on_drop]; auto.
    + intros q a _. destruct (_ =? _); reflexivity.
    + intros [l|] _; reflexivity.
    + intros q [|]; reflexivity.
  - unfold sub_start_with. intros H. apply heeds_shifted in H. unfold run. rewrite run_shifted.
    cbn [w0 s0 print_observer step fst snd app] in *. apply (@heeds_print A E cs (mkSData false []) [LNext a]); [exists [a]; reflexivity|exact H].
  - unfold sub_finalize. intros H. apply heeds_shifted in H. unfold run. rewrite run_shifted.
    cbn [w0 s0 print_observer step fst snd app] in *. apply (@heeds_print A E cs (mkSData false [k]) []); [exists []; reflexivity|exact H].
Qed.

(** Its drop prints nothing. *)
Lemma print_drop_silent : forall O F (d : sdata), lines (snd (step (print_observer O F) d CDrop)) = [].
Proof.
  intros O F d. cbn [print_observer step]. unfold sd_unsubscribe. destruct (sd_closed d); cbn [snd]; auto.
  rewrite lines_app, lines_td. auto.
Qed.
