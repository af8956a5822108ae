(** Pipelines that end in different observers: if what one end makes visible is what the other one does,
    rewritten by a transducer, then so it is for whole pipelines. *)
From Verif Require Import Base SubscrModel OpsModel ObsModel.
Set Implicit Arguments.

Section Transducer.
Variables X Y Q : Type.
Variable tr : Q -> X -> Q * list Y.

Fixpoint rewritten (q : Q) (w : list (ev X)) : Q * list (ev Y) :=
  match w with
  | [] => (q, [])
  | e :: r =>
      let '(q', l) := match e with
                      | EObs x => (fst (tr q x), map EObs (snd (tr q x)))
                      | ETd k => (q, [ETd k])
                      | EEff k => (q, [EEff k])
                      end in
      (fst (rewritten q' r), l ++ snd (rewritten q' r))
  end.
Lemma rewritten_app : forall w1 w2 q,
  rewritten q (w1 ++ w2) = (fst (rewritten (fst (rewritten q w1)) w2), snd (rewritten q w1) ++ snd (rewritten (fst (rewritten q w1)) w2)).
Proof.
  induction w1 as [|e w1 IH]; intros w2 q; cbn [app rewritten fst snd]; [apply surjective_pairing|].
  destruct e; cbn [fst snd]; rewrite IH; cbn [fst snd]; now rewrite app_assoc.
Qed.
Lemma rewritten_td : forall l q, rewritten q (map (@ETd X) l) = (q, map ETd l).
Proof. induction l as [|k l IH]; intros q; cbn; [auto|]. now rewrite IH. Qed.

Notation sub1 := (subscriber X).
Notation sub2 := (subscriber Y).

Record sim {I F} (q0 : Q) (S1 : sub1 I F) (S2 : sub2 I F) : Type := mkSim {
  rel : Q -> st S1 -> st S2 -> Prop;
  sim0 : rel (fst (rewritten q0 (w0 S1))) (s0 S1) (s0 S2);
  simw : w0 S2 = snd (rewritten q0 (w0 S1));
  simc : forall q s1 s2, rel q s1 s2 -> closed S1 s1 = closed S2 s2;
  sims : forall q s1 s2 c, rel q s1 s2 ->
    rel (fst (rewritten q (snd (step S1 s1 c)))) (fst (step S1 s1 c)) (fst (step S2 s2 c)) /\
    snd (step S2 s2 c) = snd (rewritten q (snd (step S1 s1 c)))
}.

Variable q0 : Q.

Section Exec.
  Context {O G : Type} {S1 : sub1 O G} {S2 : sub2 O G}.
  Variable H : sim q0 S1 S2.
  Lemma sim_act : forall a q s1 s2, rel H q s1 s2 ->
    rel H (fst (rewritten q (snd (exec_act S1 s1 a)))) (fst (exec_act S1 s1 a)) (fst (exec_act S2 s2 a)) /\
    snd (exec_act S2 s2 a) = snd (rewritten q (snd (exec_act S1 s1 a))).
  Proof.
    intros [n|n|n] q s1 s2 Hr; cbn [exec_act].
    - apply (sims H); auto.
    - rewrite (simc H _ _ _ Hr). destruct (closed S2 s2); [cbn; auto|apply (sims H); auto].
    - cbn. auto.
  Qed.
  Lemma sim_acts : forall l q s1 s2, rel H q s1 s2 ->
    rel H (fst (rewritten q (snd (exec_acts S1 s1 l)))) (fst (exec_acts S1 s1 l)) (fst (exec_acts S2 s2 l)) /\
    snd (exec_acts S2 s2 l) = snd (rewritten q (snd (exec_acts S1 s1 l))).
  Proof.
    induction l as [|a l IH]; intros q s1 s2 Hr; cbn [exec_acts]; [cbn; auto|].
    destruct (sim_act a q _ _ Hr) as (R1 & W1). destruct (exec_act S1 s1 a) as [u1 w1], (exec_act S2 s2 a) as [u2 w2]. cbn [fst snd] in *.
    destruct (IH _ u1 u2 R1) as (R2 & W2). destruct (exec_acts S1 u1 l) as [v1 x1], (exec_acts S2 u2 l) as [v2 x2]. cbn [fst snd] in *.
    rewrite rewritten_app. cbn [fst snd]. rewrite W1, W2. auto.
  Qed.
End Exec.

Lemma sim_denote : forall I F O G (T : trans I F O G) (S1 : sub1 O G) (S2 : sub2 O G),
  sim q0 S1 S2 -> sim q0 (denote T S1) (denote T S2).
Proof.
  intros I F O G T S1 S2 H.
  destruct (sim_acts H (o_ctor T) _ _ _ (sim0 H)) as (R0 & W0).
  refine (@mkSim _ _ q0 (denote T S1) (denote T S2) (fun q a b => fst a = fst b /\ rel H q (snd a) (snd b)) _ _ _ _).
  - cbn [denote w0 s0]. rewrite rewritten_app. unfold den_ctor. cbn [fst snd]. rewrite (simc H _ _ _ R0). auto.
  - cbn [denote w0]. rewrite rewritten_app. unfold den_ctor. cbn [snd]. rewrite (simw H), W0. reflexivity.
  - intros q [q1 s1] [q2 s2] [Hq Hr]. cbn in *. subst. now rewrite (simc H _ _ _ Hr).
  - intros q [q1 s1] [q2 s2] c [Hq Hr]. cbn [fst snd] in Hq, Hr. subst q2.
    destruct c as [n|t|]; cbn [step denote den_step].
    + unfold den_n. rewrite (simc H _ _ _ Hr).
      destruct (match n with Nxt i => on_next T q1 (closed S2 s2) i | Err e => on_error T q1 (closed S2 s2) e | Cmp => on_complete T q1 (closed S2 s2) | Uns => on_unsub T q1 (closed S2 s2) end) as [q' l].
      destruct (sim_acts H l q _ _ Hr) as (R & W). destruct (exec_acts S1 s1 l), (exec_acts S2 s2 l). cbn in *. auto.
    + cbn [snd fst]. destruct (sims H q _ _ (CAdd t) Hr) as (R & W). destruct (step S1 s1 (CAdd t)), (step S2 s2 (CAdd t)). cbn in *. auto.
    + unfold den_drop. rewrite (simc H _ _ _ Hr). destruct (on_drop T q1 (closed S2 s2)) as [q' l].
      destruct (sim_acts H l q _ _ Hr) as (R & W). destruct (exec_acts S1 s1 l) as [u1 w1], (exec_acts S2 s2 l) as [u2 w2]. cbn [fst snd] in *.
      destruct (sims H _ _ _ CDrop R) as (R' & W'). destruct (step S1 u1 CDrop), (step S2 u2 CDrop). cbn [fst snd] in *.
      rewrite rewritten_app. cbn [fst snd]. rewrite W, W'. auto.
Qed.

Lemma run_sim : forall I F (S1 : sub1 I F) (S2 : sub2 I F) (H : sim q0 S1 S2) cs q s1 s2, rel H q s1 s2 ->
  snd (run_from S2 s2 cs) = snd (rewritten q (snd (run_from S1 s1 cs))) /\
  rel H (fst (rewritten q (snd (run_from S1 s1 cs)))) (fst (run_from S1 s1 cs)) (fst (run_from S2 s2 cs)).
Proof.
  intros I F S1 S2 H cs. induction cs as [|c cs IH]; intros q s1 s2 Hr; cbn [run_from]; [cbn; auto|].
  destruct (sims H q _ _ c Hr) as (R & W). destruct (step S1 s1 c) as [u1 w1], (step S2 s2 c) as [u2 w2]. cbn [fst snd] in *.
  destruct (IH _ _ _ R) as (W2 & R2). destruct (run_from S1 u1 cs), (run_from S2 u2 cs). cbn [fst snd] in *.
  rewrite rewritten_app. cbn [fst snd]. rewrite W, W2. auto.
Qed.

(** Calls made during the construction. *)
Definition after {Z I F} (cs : list (call I F)) (D : subscriber Z I F) : subscriber Z I F :=
  {| st := st D; s0 := fst (run_from D (s0 D) cs); w0 := w0 D ++ snd (run_from D (s0 D) cs); step := step D; closed := closed D |}.
Lemma sim_after : forall I F cs (S1 : sub1 I F) (S2 : sub2 I F), sim q0 S1 S2 -> sim q0 (after cs S1) (after cs S2).
Proof.
  intros I F cs S1 S2 H. destruct (run_sim H cs _ _ _ (sim0 H)) as (W & R).
  refine (@mkSim _ _ q0 (after cs S1) (after cs S2) (rel H) _ _ (simc H) (sims H)); cbn; rewrite rewritten_app; cbn [fst snd].
  - exact R.
  - rewrite (simw H), W. reflexivity.
Qed.
Lemma one_call : forall Z I F (D : subscriber Z I F) s c, run_from D s [c] = (fst (step D s c), snd (step D s c)).
Proof. intros. cbn [run_from]. destruct (step D s c). now rewrite app_nil_r. Qed.

Lemma sim_oper : forall I F O G (o : oper I F O G) (S1 : sub1 O G) (S2 : sub2 O G), sim q0 S1 S2 -> sim q0 (op_sub o S1) (op_sub o S2).
Proof.
  intros I F O G o. induction o; intros S1 S2 H; cbn [op_sub]; auto using sim_denote.
  - pose proof (sim_after [CN (Nxt a)] H) as K. unfold after in K. rewrite !one_call in K. exact K.
  - exact (sim_after (map (fun n => CN n) l) H).
  - pose proof (sim_after [CAdd [k]] H) as K. unfold after in K. rewrite !one_call in K. exact K.
Qed.
Lemma sim_pipe : forall I F O G (p : pipe I F O G) (S1 : sub1 O G) (S2 : sub2 O G), sim q0 S1 S2 -> sim q0 (pipe_sub p S1) (pipe_sub p S2).
Proof. intros I F O G p. induction p; intros S1 S2 H; cbn [pipe_sub]; auto using sim_oper. Qed.

Theorem pipe_rewritten : forall I F O G (p : pipe I F O G) (S1 : sub1 O G) (S2 : sub2 O G) cs, sim q0 S1 S2 ->
  run (pipe_sub p S2) cs = snd (rewritten q0 (run (pipe_sub p S1) cs)) /\
  closed (pipe_sub p S2) (final (pipe_sub p S2) cs) = closed (pipe_sub p S1) (final (pipe_sub p S1) cs).
Proof.
  intros I F O G p S1 S2 cs H0. pose proof (sim_pipe p H0) as H. destruct (run_sim H cs _ _ _ (sim0 H)) as (W & R). split.
  - unfold run. rewrite rewritten_app. cbn [snd]. f_equal; [apply (simw H)|exact W].
  - symmetry. exact (simc H _ _ _ R).
Qed.
End Transducer.

(** *** The observers against the recording observer behind an [ObserverSubscriber]. *)
Definition same {X} (_ : unit) (x : X) : unit * list X := (tt, [x]).
Lemma rewritten_same : forall X (w : list (ev X)) q, rewritten same q w = (q, w).
Proof. intros X. induction w as [|e w IH]; intros []; [reflexivity|]. destruct e; cbn; now rewrite IH. Qed.

Lemma sim_fn : forall O F, sim same tt (sink O F) (upgraded (fn_observer O F)).
Proof.
  intros O F. refine (@mkSim _ _ _ same O F tt (sink O F) (upgraded (fn_observer O F))
    (fun _ d s => d = fst s /\ (sd_closed d = false -> snd s = (true, true))) _ _ _ _); cbn; auto.
  - intros _ d s [-> _]. reflexivity.
  - intros [] d [d' b] c [Hd Hb]. cbn [fst snd] in *. subst d'. rewrite rewritten_same. destruct d as [[|] fs].
    + destruct c as [[]|t|]; cbn; repeat split; auto; discriminate.
    + specialize (Hb eq_refl). cbn [fst snd] in Hb. subst b. destruct c as [[]|t|]; cbn; repeat split; auto; discriminate.
Qed.

Definition by_dyn {O F} (d : dyn) (_ : unit) (n : notif O F) : unit * list (dyn_ev O F) :=
  (tt, match n with
       | NNext o => match on_n d with Some k => [DNext k o] | None => [] end
       | NError e => match on_e d with Some k => [DError k e] | None => [DPanic] end
       | NComplete => match on_c d with Some k => [DComplete k] | None => [] end
       end).
Lemma sim_dyn : forall O F d, sim (by_dyn d) tt (sink O F) (upgraded (dyn_observer O F d)).
Proof.
  intros O F d0. refine (@mkSim _ _ _ (by_dyn d0) O F tt (sink O F) (upgraded (dyn_observer O F d0))
    (fun _ d s => d = fst s /\ (sd_closed d = false -> snd s = d0)) _ _ _ _); cbn; auto.
  - intros _ d s [-> _]. reflexivity.
  - intros [] d [d' b] c [Hd Hb]. cbn [fst snd] in *. subst d'. destruct d as [[|] fs].
    + destruct c as [[]|t|]; cbn; rewrite ?rewritten_td; repeat split; auto; discriminate.
    + specialize (Hb eq_refl). subst b.
      destruct d0 as [[|] [|] [|]]; destruct c as [[]|t|]; cbn; rewrite ?rewritten_td; cbn; rewrite ?rewritten_td; cbn; rewrite ?app_nil_r;
        repeat split; auto; discriminate.
Qed.

Definition by_noop {O F} (_ : unit) (n : notif O F) : unit * list (dyn_ev O F) :=
  (tt, match n with NError _ => [DPanic] | _ => [] end).
Lemma sim_noop : forall O F, sim by_noop tt (sink O F) (upgraded (noop_observer O F)).
Proof.
  intros O F. refine (@mkSim _ _ _ by_noop O F tt (sink O F) (upgraded (noop_observer O F))
    (fun _ d s => d = fst s) _ _ _ _); cbn; auto.
  - intros _ d s ->. reflexivity.
  - intros [] d [d' b] c Hd. cbn [fst] in Hd. subst d'. destruct d as [[|] fs], c as [[]|t|]; cbn; rewrite ?rewritten_td; cbn; auto.
Qed.

(** *** PrintObserver: what a protected observer would be told are the lines up to the end. *)
Definition until_end {O F} (over : bool) (l : line O F) : bool * list (notif O F) :=
  match l with
  | LNext o => (over, if over then [] else [NNext o])
  | LError e => (true, if over then [] else [NError e])
  | LCompleted => (true, if over then [] else [NComplete])
  | LUnsubscribed | LDropped => (true, [])
  end.
Lemma sim_print : forall O F, sim until_end false (print_observer O F) (sink O F).
Proof.
  intros O F. refine (@mkSim _ _ _ until_end O F false (print_observer O F) (sink O F)
    (fun q d s => d = s /\ q = sd_closed d) _ _ _ _); cbn; auto.
  - intros _ d s [-> _]. reflexivity.
  - intros q d s c [<- ->]. destruct d as [[|] fs], c as [[]|t|]; cbn; rewrite ?rewritten_app, ?rewritten_td; cbn; rewrite ?rewritten_td; cbn;
      rewrite ?app_nil_r; auto.
Qed.

(** *** Something of which there is a limited supply at the end of a pipeline. *)
Section Supply.
Variable X : Type.
Variable f : X -> nat.
Fixpoint total (w : list (ev X)) : nat :=
  match w with [] => 0 | EObs x :: r => f x + total r | _ :: r => total r end.
Lemma total_app : forall a b, total (a ++ b) = total a + total b.
Proof. induction a as [|[] a IH]; intros b; cbn; rewrite ?IH; lia. Qed.
Lemma total_td : forall l, total (map ETd l) = 0.
Proof. induction l; auto. Qed.

Definition supplied {I E} (n : nat) (S : subscriber X I E) : Prop := exists m : st S -> nat,
  total (w0 S) + m (s0 S) <= n /\ forall s c, total (snd (step S s c)) + m (fst (step S s c)) <= m s.

Section Lift.
  Context {O G : Type} {D : subscriber X O G} {m : st D -> nat}.
  Hypothesis Hs : forall s c, total (snd (step D s c)) + m (fst (step D s c)) <= m s.
  Lemma supplied_acts : forall l d, total (snd (exec_acts D d l)) + m (fst (exec_acts D d l)) <= m d.
  Proof.
    induction l as [|a l IH]; intros d; cbn [exec_acts]; [cbn; lia|].
    assert (H1 : total (snd (exec_act D d a)) + m (fst (exec_act D d a)) <= m d).
    { destruct a as [n|n|n]; cbn [exec_act]; [apply Hs| |cbn; lia]. destruct (closed D d); [cbn; lia|apply Hs]. }
    destruct (exec_act D d a) as [d1 w1]. cbn [fst snd] in H1. specialize (IH d1). destruct (exec_acts D d1 l). cbn [fst snd] in *.
    rewrite total_app. lia.
  Qed.
  Lemma supplied_run : forall cs d, total (snd (run_from D d cs)) + m (fst (run_from D d cs)) <= m d.
  Proof.
    induction cs as [|c cs IH]; intros d; cbn [run_from]; [cbn; lia|]. specialize (Hs d c).
    destruct (step D d c) as [d1 w1]. cbn [fst snd] in Hs. specialize (IH d1). destruct (run_from D d1 cs). cbn [fst snd] in *.
    rewrite total_app. lia.
  Qed.
End Lift.

Lemma supplied_denote : forall n I F O G (T : trans I F O G) (D : subscriber X O G), supplied n D -> supplied n (denote T D).
Proof.
  intros n I F O G T D [m [H0 Hs]]. exists (fun s => m (snd s)). split.
  - cbn [denote w0 s0 snd]. rewrite total_app. unfold den_ctor. pose proof (supplied_acts Hs (o_ctor T) (s0 D)). lia.
  - intros [q d] [x|t|]; cbn [denote step den_step den_n den_drop fst snd].
    + destruct (match x with Nxt i => on_next T q (closed D d) i | Err e => on_error T q (closed D d) e | Cmp => on_complete T q (closed D d) | Uns => on_unsub T q (closed D d) end) as [q' l].
      pose proof (supplied_acts Hs l d). destruct (exec_acts D d l). cbn [fst snd] in *. lia.
    + specialize (Hs d (CAdd t)). destruct (step D d (CAdd t)). exact Hs.
    + destruct (on_drop T q (closed D d)) as [q' l]. pose proof (supplied_acts Hs l d). destruct (exec_acts D d l) as [d1 w1]. cbn [fst snd] in *.
      specialize (Hs d1 CDrop). destruct (step D d1 CDrop). cbn [fst snd] in *. rewrite total_app. lia.
Qed.
Lemma supplied_after : forall n I F cs (D : subscriber X I F), supplied n D -> supplied n (after cs D).
Proof.
  intros n I F cs D [m [H0 Hs]]. exists m. split; [|exact Hs]. cbn. rewrite total_app. pose proof (supplied_run Hs cs (s0 D)). lia.
Qed.
Lemma supplied_oper : forall n I F O G (o : oper I F O G) (D : subscriber X O G), supplied n D -> supplied n (op_sub o D).
Proof.
  intros n I F O G o. induction o; intros D H; cbn [op_sub]; auto using supplied_denote.
  - pose proof (supplied_after [CN (Nxt a)] H) as K. unfold after in K. rewrite !one_call in K. exact K.
  - exact (supplied_after (map (fun n => CN n) l) H).
  - pose proof (supplied_after [CAdd [k]] H) as K. unfold after in K. rewrite !one_call in K. exact K.
Qed.
Theorem supplied_pipe : forall n I F O G (p : pipe I F O G) (D : subscriber X O G) cs, supplied n D -> total (run (pipe_sub p D) cs) <= n.
Proof.
  intros n I F O G p D cs H.
  assert (K : supplied n (pipe_sub p D)) by (clear cs; revert D H; induction p; intros D H; cbn [pipe_sub]; auto using supplied_oper).
  destruct K as [m [H0 Hs]]. unfold run. rewrite total_app. pose proof (supplied_run Hs cs (s0 (pipe_sub p D))). lia.
Qed.
End Supply.

Definition unsub_line {O F} (l : line O F) : nat := match l with LUnsubscribed => 1 | _ => 0 end.
Lemma print_unsubscribed_once : forall I F O G (p : pipe I F O G) cs,
  total unsub_line (run (pipe_sub p (print_observer O G)) cs) <= 1.
Proof.
  intros. apply supplied_pipe. exists (fun d : sdata => if sd_closed d then 0 else 1). split; [apply le_n|].
  intros [[|] fs] [[]|t|]; cbn; rewrite ?total_app, ?total_td; cbn; rewrite ?total_td; cbn; auto.
Qed.

(** *** The observers used directly. *)
Definition is_err {O F} (n : notif O F) : bool := match n with NError _ => true | _ => false end.
Definition is_cmp {O F} (n : notif O F) : bool := match n with NComplete => true | _ => false end.
Lemma used_snoc : forall X O F (B : observer X O F) ns b n, used B b (ns ++ [n]) =
  (fst (ob_call B (fst (used B b ns)) n), snd (used B b ns) ++ snd (ob_call B (fst (used B b ns)) n)).
Proof.
  intros X O F B. induction ns as [|m ns IH]; intros b n; cbn [used app fst snd].
  - destruct (ob_call B b n). rewrite app_nil_r. reflexivity.
  - destruct (ob_call B b m) as [b1 w1]. rewrite IH. destruct (used B b1 ns). cbn [fst snd]. rewrite app_assoc. reflexivity.
Qed.
Lemma fn_left : forall O F ns, fst (used (fn_observer O F) (ob0 (fn_observer O F)) ns) = (negb (existsb is_err ns), negb (existsb is_cmp ns)).
Proof.
  intros O F. induction ns as [|n ns IH] using rev_ind; [reflexivity|]. rewrite used_snoc, !existsb_app. cbn [fst]. rewrite IH.
  destruct n; cbn; destruct (existsb is_err ns), (existsb is_cmp ns); reflexivity.
Qed.
Lemma fn_direct : forall O F ns n, let B := fn_observer O F in
  snd (used B (ob0 B) (ns ++ [n])) = snd (used B (ob0 B) ns) ++
    (if is_err n && existsb is_err ns || is_cmp n && existsb is_cmp ns then [] else [EObs n]).
Proof.
  intros O F ns n B. unfold B. rewrite used_snoc. cbn [snd]. rewrite fn_left.
  destruct n; cbn; destruct (existsb is_err ns), (existsb is_cmp ns); reflexivity.
Qed.
Lemma dyn_left : forall O F d ns, fst (used (dyn_observer O F d) d ns) =
  mkDyn (on_n d) (if existsb is_err ns then None else on_e d) (if existsb is_cmp ns then None else on_c d).
Proof.
  intros O F d. induction ns as [|n ns IH] using rev_ind; [destruct d; reflexivity|].
  rewrite (used_snoc (dyn_observer O F d)), !existsb_app. cbn [fst]. rewrite IH.
  destruct d as [[|] [|] [|]], n; cbn; destruct (existsb is_err ns), (existsb is_cmp ns); reflexivity.
Qed.
Lemma dyn_direct : forall O F d ns n, let B := dyn_observer O F d in
  snd (used B d (ns ++ [n])) = snd (used B d ns) ++
    match n with
    | NNext o => match on_n d with Some k => [EObs (DNext k o)] | None => [] end
    | NError e => match on_e d with Some k => if existsb is_err ns then [EObs DPanic] else [EObs (DError k e)] | None => [EObs DPanic] end
    | NComplete => match on_c d with Some k => if existsb is_cmp ns then [] else [EObs (DComplete k)] | None => [] end
    end.
Proof.
  intros O F d ns n B. unfold B. rewrite (used_snoc (dyn_observer O F d)). cbn [snd]. rewrite dyn_left.
  destruct d as [[|] [|] [|]], n; cbn; destruct (existsb is_err ns), (existsb is_cmp ns); reflexivity.
Qed.
