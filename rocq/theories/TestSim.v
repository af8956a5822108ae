(** Between a test and real use: a pipeline that ends in a mock observer does what one that ends
    in an [ObserverSubscriber] does, and the latter's observer is told what the mock has seen up to
    the end. *)
From Verif Require Import Base SubscrModel OpsModel TestModel.
Set Implicit Arguments.

(** The record of a mock, cut at the first terminal or unsubscription; other effects stay. *)
Fixpoint cut {A E} (over : bool) (w : list (ev (ncall A E))) : list (ev (notif A E)) * bool :=
  match w with
  | [] => ([], over)
  | e :: r =>
      let '(r', o') := cut (over || match e with EObs (Nxt _) => false | EObs _ => true | _ => false end) r in
      (match e with
       | EObs n => if over then [] else match n with Nxt a => [EObs (NNext a)] | Err e => [EObs (NError e)] | Cmp => [EObs NComplete] | Uns => [] end
       | ETd k => [ETd k]
       | EEff k => [EEff k]
       end ++ r', o')
  end.
Lemma cut_app : forall A E (w1 w2 : list (ev (ncall A E))) o,
  cut o (w1 ++ w2) = (fst (cut o w1) ++ fst (cut (snd (cut o w1)) w2), snd (cut (snd (cut o w1)) w2)).
Proof.
  intros A E w1. induction w1 as [|e w1 IH]; intros w2 o; cbn [app cut]; [cbn; now destruct (cut o w2)|].
  rewrite IH. destruct (cut _ w1) as [r o']. cbn [fst snd]. now rewrite app_assoc.
Qed.
Lemma cut_td : forall A E l o, cut o (map (@ETd (ncall A E)) l) = (map ETd l, o).
Proof. intros A E l. induction l as [|k l IH]; intros o; auto. cbn. rewrite Bool.orb_false_r, IH. reflexivity. Qed.

Section Sim.
Variables A E : Type.
Notation sub1 := (subscriber (ncall A E)).
Notation sub2 := (subscriber (notif A E)).

Record sim {I F} (S1 : sub1 I F) (S2 : sub2 I F) : Type := mkSim {
  rel : st S1 -> st S2 -> Prop;
  over : st S1 -> bool;
  sim0 : rel (s0 S1) (s0 S2);
  simw : w0 S2 = fst (cut false (w0 S1));
  simo : over (s0 S1) = snd (cut false (w0 S1));
  simc : forall s1 s2, rel s1 s2 -> closed S1 s1 = closed S2 s2;
  sims : forall s1 s2 c, rel s1 s2 ->
    rel (fst (step S1 s1 c)) (fst (step S2 s2 c)) /\
    snd (step S2 s2 c) = fst (cut (over s1) (snd (step S1 s1 c))) /\
    over (fst (step S1 s1 c)) = snd (cut (over s1) (snd (step S1 s1 c)))
}.

Lemma sim_sink : sim (mock A E) (sink A E).
Proof.
  refine (@mkSim A E (mock A E) (sink A E) eq sd_closed eq_refl eq_refl eq_refl _ _); [now intros s1 s2 ->|].
  intros s1 s2 c <-. destruct s1 as [cl fs]. destruct c as [[a|e| |]|t|]; destruct cl; cbn -[cut map]; rewrite ?cut_app, ?cut_td; cbn -[map];
    rewrite ?cut_td; cbn; rewrite ?app_nil_r; auto.
Qed.

Lemma sim_denote : forall I F O G (T : trans I F O G) S1 S2, sim S1 S2 -> sim (denote T S1) (denote T S2).
Proof.
  intros I F O G T S1 S2 H.
  assert (XA : forall l s1 s2, rel H s1 s2 ->
    rel H (fst (exec_acts S1 s1 l)) (fst (exec_acts S2 s2 l)) /\
    snd (exec_acts S2 s2 l) = fst (cut (over H s1) (snd (exec_acts S1 s1 l))) /\
    over H (fst (exec_acts S1 s1 l)) = snd (cut (over H s1) (snd (exec_acts S1 s1 l)))).
  { assert (X1 : forall a s1 s2, rel H s1 s2 ->
      rel H (fst (exec_act S1 s1 a)) (fst (exec_act S2 s2 a)) /\
      snd (exec_act S2 s2 a) = fst (cut (over H s1) (snd (exec_act S1 s1 a))) /\
      over H (fst (exec_act S1 s1 a)) = snd (cut (over H s1) (snd (exec_act S1 s1 a)))).
    { intros [n|n|n] s1 s2 Hr; cbn [exec_act].
      - apply (sims H); auto.
      - rewrite (simc H _ _ Hr). destruct (closed S2 s2); [cbn; auto|apply (sims H); auto].
      - cbn. rewrite Bool.orb_false_r. auto. }
    induction l as [|a l IH]; intros s1 s2 Hr; cbn [exec_acts]; [cbn; auto|].
    destruct (X1 a s1 s2 Hr) as (R1 & W1 & O1). destruct (exec_act S1 s1 a) as [u1 w1], (exec_act S2 s2 a) as [u2 w2]. cbn [fst snd] in *.
    destruct (IH u1 u2 R1) as (R2 & W2 & O2). destruct (exec_acts S1 u1 l) as [v1 x1], (exec_acts S2 u2 l) as [v2 x2]. cbn [fst snd] in *.
    rewrite cut_app. cbn [fst snd]. rewrite <- O1, W1, W2. auto. }
  destruct (XA (o_ctor T) _ _ (sim0 H)) as (R0 & W0 & O0).
  refine (@mkSim _ _ (denote T S1) (denote T S2) (fun a b => fst a = fst b /\ rel H (snd a) (snd b)) (fun a => over H (snd a)) _ _ _ _ _).
  - cbn. unfold den_ctor. rewrite (simc H _ _ R0). auto.
  - cbn. unfold den_ctor. rewrite cut_app. cbn [fst]. rewrite <- (simo H), <- W0. f_equal. apply (simw H).
  - cbn. unfold den_ctor. rewrite cut_app. cbn [snd]. rewrite <- (simo H). exact O0.
  - intros [q s1] [q' s2] [Hq Hr]. cbn in *. subst. now rewrite (simc H _ _ Hr).
  - intros [q s1] [q' s2] c [Hq Hr]. cbn [fst snd] in Hq, Hr. subst q'.
    destruct c as [n|t|]; cbn [step denote den_step].
    + unfold den_n. rewrite (simc H _ _ Hr).
      destruct (match n with Nxt i => on_next T q (closed S2 s2) i | Err e => on_error T q (closed S2 s2) e | Cmp => on_complete T q (closed S2 s2) | Uns => on_unsub T q (closed S2 s2) end) as [q' l].
      destruct (XA l _ _ Hr) as (R & W & O'). destruct (exec_acts S1 s1 l), (exec_acts S2 s2 l). cbn in *. auto.
    + cbn [snd fst]. destruct (sims H _ _ (CAdd t) Hr) as (R & W & O'). destruct (step S1 s1 (CAdd t)), (step S2 s2 (CAdd t)). cbn in *. auto.
    + unfold den_drop. rewrite (simc H _ _ Hr). destruct (on_drop T q (closed S2 s2)) as [q' l].
      destruct (XA l _ _ Hr) as (R & W & O'). destruct (exec_acts S1 s1 l) as [u1 w1], (exec_acts S2 s2 l) as [u2 w2]. cbn [fst snd] in *.
      destruct (sims H _ _ CDrop R) as (R' & W' & O''). destruct (step S1 u1 CDrop), (step S2 u2 CDrop). cbn [fst snd] in *.
      rewrite cut_app. cbn [fst snd]. rewrite <- O', W, W'. auto.
Qed.

Lemma run_acc : forall I F (S1 : sub1 I F) (S2 : sub2 I F) (H : sim S1 S2) cs s1 s2, rel H s1 s2 ->
  snd (run_from S2 s2 cs) = fst (cut (over H s1) (snd (run_from S1 s1 cs))) /\
  rel H (fst (run_from S1 s1 cs)) (fst (run_from S2 s2 cs)) /\
  over H (fst (run_from S1 s1 cs)) = snd (cut (over H s1) (snd (run_from S1 s1 cs))).
Proof.
  intros I F S1 S2 H cs. induction cs as [|c cs IH]; intros s1 s2 Hr; cbn [run_from]; [cbn; auto|].
  destruct (sims H _ _ c Hr) as (R & W & O'). destruct (step S1 s1 c) as [u1 w1], (step S2 s2 c) as [u2 w2]. cbn [fst snd] in *.
  destruct (IH _ _ R) as (W2 & R2 & O2). destruct (run_from S1 u1 cs), (run_from S2 u2 cs). cbn [fst snd] in *.
  rewrite cut_app. cbn [fst snd]. rewrite <- O', W, W2. auto.
Qed.

(** Calls made during the construction. *)
Definition after {X I F} (cs : list (call I F)) (D : subscriber X I F) : subscriber X I F :=
  {| st := st D; s0 := fst (run_from D (s0 D) cs); w0 := w0 D ++ snd (run_from D (s0 D) cs); step := step D; closed := closed D |}.
Lemma sim_after : forall I F cs (S1 : sub1 I F) (S2 : sub2 I F), sim S1 S2 -> sim (after cs S1) (after cs S2).
Proof.
  intros I F cs S1 S2 H. destruct (run_acc H cs _ _ (sim0 H)) as (W & R & O').
  refine (@mkSim _ _ (after cs S1) (after cs S2) (rel H) (over H) R _ _ (simc H) (sims H)); cbn; rewrite cut_app; cbn [fst snd].
  - rewrite <- (simo H), (simw H), W. reflexivity.
  - rewrite <- (simo H). exact O'.
Qed.
Lemma one_call : forall X I F (D : subscriber X I F) s c, run_from D s [c] = (fst (step D s c), snd (step D s c)).
Proof. intros. cbn [run_from]. destruct (step D s c). now rewrite app_nil_r. Qed.

Lemma sim_oper : forall I F O G (o : oper I F O G) (S1 : sub1 O G) (S2 : sub2 O G), sim S1 S2 -> sim (op_sub o S1) (op_sub o S2).
Proof.
  intros I F O G o. induction o; intros S1 S2 H; cbn [op_sub]; auto using sim_denote.
  - pose proof (sim_after [CN (Nxt a)] H) as K. unfold after in K. rewrite !one_call in K. exact K.
  - exact (sim_after (map (fun n => CN n) l) H).
  - pose proof (sim_after [CAdd [k]] H) as K. unfold after in K. rewrite !one_call in K. exact K.
Qed.
Lemma sim_pipe : forall I F O G (p : pipe I F O G) (S1 : sub1 O G) (S2 : sub2 O G), sim S1 S2 -> sim (pipe_sub p S1) (pipe_sub p S2).
Proof. intros I F O G p. induction p; intros S1 S2 H; cbn [pipe_sub]; auto using sim_oper. Qed.
End Sim.

Lemma mock_for_real : forall I F O G (p : pipe I F O G) cs,
  run (head p) cs = fst (cut false (run (pipe_sub p (mock O G)) cs)) /\
  closed (head p) (final (head p) cs) = closed (pipe_sub p (mock O G)) (final (pipe_sub p (mock O G)) cs).
Proof.
  intros. pose proof (sim_pipe p (sim_sink O G)) as H. destruct (run_acc H cs _ _ (sim0 H)) as (W & R & _). split.
  - unfold run. rewrite cut_app. cbn [fst]. rewrite <- (simo H). f_equal; [apply (simw H)|exact W].
  - symmetry. apply (simc H). exact R.
Qed.
