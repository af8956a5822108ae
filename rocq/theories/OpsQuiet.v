(** What operators call on a destination that does not protect itself. *)
From Verif Require Import Base SubscrModel OpsModel.
Set Implicit Arguments.

(** *** A destination that records every call, whether it is closed or not; it is closed by an error, a
    completion, an unsubscription or a drop. *)
Definition bare (O F : Type) : subscriber (ncall O F) O F :=
  {| st := bool; s0 := false; w0 := [];
     step := fun b c => match c with
                        | CN (Nxt o) => (b, [EObs (Nxt o)])
                        | CN n => (true, [EObs n])
                        | CAdd _ => (b, [])
                        | CDrop => (true, [])
                        end;
     closed := fun b => b |}.

Definition told {X} (w : list (ev X)) : list X := flat_map (fun e => match e with EObs x => [x] | _ => [] end) w.
Definition effects {X} (w : list (ev X)) : list nat := flat_map (fun e => match e with EEff n => [n] | _ => [] end) w.
Definition is_next {O F} (n : ncall O F) : bool := match n with Nxt _ => true | _ => false end.

(** Values, then an end, then at most unsubscriptions. *)
Definition orderly {O F} (l : list (ncall O F)) : Prop :=
  forall l1 n l2, l = l1 ++ n :: l2 -> is_next n = false -> Forall (fun m => m = Uns) l2.

(** A source that looks at [is_closed] before it tells anything. *)
Fixpoint heeds {X I E} (S : subscriber X I E) (s : st S) (cs : list (call I E)) : Prop :=
  match cs with
  | [] => True
  | c :: r => match c with CN Uns | CAdd _ | CDrop => True | CN _ => closed S s = false end /\ heeds S (fst (step S s c)) r
  end.

(** Not: operators composed of others, and those whose callback is handed the destination. *)
Definition plain {I E O F} (o : oper I E O F) : bool :=
  match o with
  | OComposite _ _ | OOptSome _ | OOnNext _ | OOnSubscribe _ => false
  | _ => true
  end.

(** What the callbacks of tap are called with. *)
Fixpoint taps {A E} (fn : A -> nat) (fe : E -> nat) (fc : nat) (cs : list (call A E)) : list nat :=
  match cs with
  | [] => []
  | CN (Nxt a) :: r => fn a :: taps fn fe fc r
  | CN (Err e) :: _ => [fe e]
  | CN Cmp :: _ => [fc]
  | _ :: r => taps fn fe fc r
  end.

Lemma told_app X (a b : list (ev X)) : told (a ++ b) = told a ++ told b.
Proof. apply flat_map_app. Qed.
Lemma effects_app X (a b : list (ev X)) : effects (a ++ b) = effects a ++ effects b.
Proof. apply flat_map_app. Qed.

Lemma run_cons : forall X I E (S : subscriber X I E) s c cs,
  snd (run_from S s (c :: cs)) = snd (step S s c) ++ snd (run_from S (fst (step S s c)) cs).
Proof. intros. cbn [run_from]. destruct (step S s c) as [s1 w1]. cbn [fst snd]. destruct (run_from S s1 cs). reflexivity. Qed.

(** *** Order *)
Definition Inv {O F} (b : bool) (l : list (ncall O F)) : Prop :=
  if b then orderly l else Forall (fun n => is_next n = true) l.

Lemma all_next_orderly O F (l : list (ncall O F)) : Forall (fun n => is_next n = true) l -> orderly l.
Proof.
  intros H l1 n l2 -> Hn. apply Forall_app in H as [_ H]. inversion H; congruence.
Qed.
Lemma Inv_orderly O F b (l : list (ncall O F)) : Inv b l -> orderly l.
Proof. destruct b; [auto|apply all_next_orderly]. Qed.
Lemma orderly_end O F (l : list (ncall O F)) n : Forall (fun n => is_next n = true) l -> orderly (l ++ [n]).
Proof.
  intros H l1 m l2 He Hm. destruct l2 as [|x l2 _] using rev_ind; [constructor|exfalso].
  rewrite app_comm_cons, app_assoc in He. apply app_inj_tail in He as [-> ->].
  apply Forall_app in H as [_ H]. inversion H; congruence.
Qed.
Lemma orderly_uns O F (l : list (ncall O F)) : orderly l -> orderly (l ++ [Uns]).
Proof.
  intros H l1 m l2 He Hm. destruct l2 as [|x l2 _] using rev_ind; [constructor|].
  rewrite app_comm_cons, app_assoc in He. apply app_inj_tail in He as [-> <-].
  apply Forall_app. split; [|repeat constructor]. apply (H l1 m l2); auto.
Qed.

(** Reactions that keep the order, on an open and on a closed destination. *)
Definition calm {O F} (l : list (act O F)) : bool :=
  forallb (fun a => match a with IfOpen _ | Emit _ | Do Uns => true | _ => false end) l.
Fixpoint nice {O F} (l : list (act O F)) : bool :=
  match l with
  | [] => true
  | Do (Nxt _) :: r | IfOpen (Nxt _) :: r | Emit _ :: r => nice r
  | Do _ :: r | IfOpen _ :: r => calm r
  end.
Definition only_uns {O F} (l : list (act O F)) : bool :=
  forallb (fun a => match a with Do Uns => true | _ => false end) l.

Record polite {I E O F} (T : trans I E O F) : Prop := {
  p_ctor : nice (o_ctor T) = true;
  p_next : forall q i, oclosed T q = false -> nice (snd (on_next T q false i)) = true;
  p_error : forall q e, oclosed T q = false -> nice (snd (on_error T q false e)) = true;
  p_complete : forall q, oclosed T q = false -> nice (snd (on_complete T q false)) = true;
  p_unsub : forall q b, only_uns (snd (on_unsub T q b)) = true;
  p_drop : forall q b, only_uns (snd (on_drop T q b)) = true
}.

Section Order.
  Context {I E O F : Type}.
  Variable T : trans I E O F.
  Notation D := (bare O F).

  Lemma exec_cons : forall (d : bool) a l, exec_acts D d (a :: l) =
    (fst (exec_acts D (fst (exec_act D d a)) l), snd (exec_act D d a) ++ snd (exec_acts D (fst (exec_act D d a)) l)).
  Proof.
    intros. cbn [exec_acts]. destruct (exec_act D d a) as [d1 w1]. cbn [fst snd].
    destruct (exec_acts D d1 l). reflexivity.
  Qed.

  Lemma calm_closed : forall l ls, calm l = true -> orderly ls ->
    fst (exec_acts D true l) = true /\ orderly (ls ++ told (snd (exec_acts D true l))).
  Proof.
    induction l as [|a l IH]; intros ls Hc Ho; [cbn; rewrite app_nil_r; auto|].
    cbn in Hc. apply andb_prop in Hc as [Ha Hc]. rewrite exec_cons. cbn [fst snd]. rewrite told_app, app_assoc.
    destruct a as [[]|n|n]; try discriminate; cbn [exec_act closed bare step fst snd told flat_map app]; rewrite ?app_nil_r.
    - apply IH; auto using orderly_uns.
    - apply IH; auto.
    - apply IH; auto.
  Qed.
  Lemma nice_open : forall l ls, nice l = true -> Forall (fun n => is_next n = true) ls ->
    Inv (fst (exec_acts D false l)) (ls ++ told (snd (exec_acts D false l))).
  Proof.
    induction l as [|a l IH]; intros ls Hc Ho; [cbn; rewrite app_nil_r; auto|].
    rewrite exec_cons. cbn [fst snd]. rewrite told_app, app_assoc.
    assert (Hc' : forall n : ncall O F, calm l = true ->
      Inv (fst (exec_acts D true l)) ((ls ++ [n]) ++ told (snd (exec_acts D true l)))).
    { intros n Hl. destruct (@calm_closed l (ls ++ [n]) Hl (orderly_end _ Ho)) as [-> H]. exact H. }
    assert (Hn' : forall x, Forall (fun n : ncall O F => is_next n = true) (ls ++ [Nxt x])).
    { intros x. apply Forall_app. split; auto. }
    destruct a as [[]|[]|n]; cbn [exec_act closed bare step fst snd told flat_map app] in *; auto;
      try (apply Hc'; exact Hc); try (apply IH; auto).
    rewrite app_nil_r. exact Ho.
  Qed.
  Lemma uns_any : forall l b ls, only_uns l = true -> Inv b ls ->
    Inv (fst (exec_acts D b l)) (ls ++ told (snd (exec_acts D b l))).
  Proof.
    induction l as [|a l IH]; intros b ls Hc Ho; [cbn; rewrite app_nil_r; auto|].
    cbn in Hc. apply andb_prop in Hc as [Ha Hc]. rewrite exec_cons. cbn [fst snd]. rewrite told_app, app_assoc.
    destruct a as [[]| |]; try discriminate. cbn [exec_act closed bare step fst snd told flat_map app].
    apply IH; auto. cbn. apply orderly_uns. eapply Inv_orderly, Ho.
  Qed.

  Hypothesis P : polite T.

  Lemma polite_step : forall q b c ls, Inv b ls ->
    match c with CN Uns | CAdd _ | CDrop => True | CN _ => oclosed T q || b = false end ->
    Inv (snd (fst (step (denote T D) (q, b) c))) (ls ++ told (snd (step (denote T D) (q, b) c))).
  Proof.
    intros q b c ls Hi Hc. destruct c as [n|t|].
    - cbn [step denote den_step den_n].
      assert (H : forall r : oq T * list (act O F),
        Inv (fst (exec_acts D b (snd r))) (ls ++ told (snd (exec_acts D b (snd r)))) ->
        Inv (snd (fst (let '(q', l) := r in let '(d', w) := exec_acts D b l in ((q', d'), w))))
            (ls ++ told (snd (let '(q', l) := r in let '(d', w) := exec_acts D b l in ((q', d'), w))))).
      { intros [q' l]. cbn [snd]. destruct (exec_acts D b l). auto. }
      apply H. clear H. destruct n; try (apply orb_false_iff in Hc as [Hq ->]; apply nice_open; [|exact Hi]).
      + apply (p_next P), Hq.
      + apply (p_error P), Hq.
      + apply (p_complete P), Hq.
      + apply uns_any; [apply (p_unsub P)|exact Hi].
    - cbn. now rewrite app_nil_r.
    - cbn [step denote den_step den_drop]. pose proof (p_drop P q b) as Hd. cbn [closed bare].
      destruct (on_drop T q b) as [q' l]. cbn [snd] in Hd. pose proof (@uns_any l b ls Hd Hi) as H.
      destruct (exec_acts D b l) as [d w]. cbn [fst snd bare step] in *. rewrite app_nil_r.
      cbn. eapply Inv_orderly, H.
  Qed.

  Lemma polite_run : forall cs q b ls, Inv b ls -> heeds (denote T D) (q, b) cs ->
    orderly (ls ++ told (snd (run_from (denote T D) (q, b) cs))).
  Proof.
    induction cs as [|c cs IH]; intros q b ls Hi Hh; [cbn; rewrite app_nil_r; eapply Inv_orderly, Hi|].
    destruct Hh as [Hc Hh]. pose proof (@polite_step q b c ls Hi Hc) as Hs. rewrite run_cons, told_app, app_assoc.
    destruct (fst (step (denote T D) (q, b) c)) as [q1 b1]. apply IH; assumption.
  Qed.

  Theorem polite_orderly : forall cs, heeds (denote T D) (s0 (denote T D)) cs -> orderly (told (run (denote T D) cs)).
  Proof.
    intros cs Hh. pose proof (@nice_open (o_ctor T) [] (p_ctor P) (Forall_nil _)) as Hi.
    unfold run. cbn [denote w0 bare app]. rewrite told_app. apply polite_run; [exact Hi|exact Hh].
  Qed.
End Order.

Ltac polite_tac :=
  constructor; cbn; auto; intros;
  repeat match goal with
         | x : Empty_set |- _ => destruct x
         | x : _ * _ |- _ => destruct x
         | x : notif _ _ |- _ => destruct x
         | x : _ + _ |- _ => destruct x
         | |- context [match ?x with _ => _ end] => destruct x
         | |- context [if ?x then _ else _] => destruct x
         end; cbn in *; auto; try congruence.

Lemma heeds_bare : forall O F cs (b : bool) (ls : list (ncall O F)), Inv b ls -> heeds (bare O F) b cs ->
  orderly (ls ++ told (snd (run_from (bare O F) b cs))).
Proof.
  induction cs as [|c cs IH]; intros b ls Hi Hh; [cbn; rewrite app_nil_r; eapply Inv_orderly, Hi|].
  destruct Hh as [Hc Hh]. rewrite run_cons, told_app, app_assoc. apply IH; [|exact Hh].
  destruct c as [[]|t|]; cbn in Hc; subst; cbn [step bare fst snd told flat_map app] in *; rewrite ?app_nil_r;
    auto; try (apply orderly_end; exact Hi); try (apply orderly_uns); try (eapply Inv_orderly, Hi).
  apply Forall_app; auto.
Qed.

Lemma heeds_shifted : forall X A E (D : subscriber X A E) s w cs (s1 : st D),
  heeds {| st := st D; s0 := s; w0 := w; step := step D; closed := closed D |} s1 cs -> heeds D s1 cs.
Proof. induction cs as [|c cs IH]; intros s1 H; [exact H|]. destruct H as [Hc H]. split; [exact Hc|]. apply IH, H. Qed.
Lemma run_shifted : forall X A E (D : subscriber X A E) s w cs (s1 : st D),
  run_from {| st := st D; s0 := s; w0 := w; step := step D; closed := closed D |} s1 cs = run_from D s1 cs.
Proof.
  induction cs as [|c cs IH]; intros s1; [reflexivity|]. cbn [run_from step]. destruct (step D s1 c). rewrite IH. reflexivity.
Qed.

Theorem plain_orderly : forall I E O F (o : oper I E O F) cs, plain o = true ->
  heeds (op_sub o (bare O F)) (s0 (op_sub o (bare O F))) cs -> orderly (told (run (op_sub o (bare O F)) cs)).
Proof.
  intros I E O F o cs Hp. destruct o; try discriminate; cbn [op_sub];
    try (apply polite_orderly; clear Hp; polite_tac; fail).
  - apply polite_orderly. clear Hp. constructor; cbn [t_buffer_count simple_trans o_ctor on_next on_error on_complete on_unsub on_drop]; auto.
    + intros q a _. destruct (_ =? _); reflexivity.
    + intros [l|] _; reflexivity.
    + intros q [|]; reflexivity.
  - unfold sub_start_with. intros H. apply heeds_shifted in H. unfold run. rewrite run_shifted.
    cbn [w0 s0 bare step fst snd app] in *. apply (@heeds_bare A E cs false [Nxt a]); [repeat constructor|exact H].
  - unfold sub_finalize. intros H. apply heeds_shifted in H. unfold run. rewrite run_shifted.
    cbn [w0 s0 bare step fst snd app] in *. apply (@heeds_bare A E cs false []); [constructor|exact H].
Qed.

(** *** At most so many values, whatever is called *)
Definition nexts {O F} (l : list (ncall O F)) : nat := length (filter is_next l).
Definition acted {O F} (l : list (act O F)) : nat :=
  length (filter (fun a => match a with Do n | IfOpen n => is_next n | Emit _ => false end) l).

Lemma nexts_app O F (a b : list (ncall O F)) : nexts (a ++ b) = nexts a + nexts b.
Proof. unfold nexts. now rewrite filter_app, app_length. Qed.

Section Allowance.
  Context {I E O F : Type}.
  Variable T : trans I E O F.
  Variable m : oq T -> nat.
  Notation D := (bare O F).
  Hypothesis Hctor : acted (o_ctor T) = 0.
  Hypothesis Hnext : forall q b i, acted (snd (on_next T q b i)) + m (fst (on_next T q b i)) <= m q.
  Hypothesis Herr : forall q b e, acted (snd (on_error T q b e)) + m (fst (on_error T q b e)) <= m q.
  Hypothesis Hcmp : forall q b, acted (snd (on_complete T q b)) + m (fst (on_complete T q b)) <= m q.
  Hypothesis Huns : forall q b, acted (snd (on_unsub T q b)) + m (fst (on_unsub T q b)) <= m q.
  Hypothesis Hdrop : forall q b, acted (snd (on_drop T q b)) + m (fst (on_drop T q b)) <= m q.

  Lemma exec_acted : forall l b, nexts (told (snd (exec_acts D b l))) <= acted l.
  Proof.
    induction l as [|a l IH]; intros b; [apply le_n|]. rewrite exec_cons. cbn [snd]. rewrite told_app, nexts_app.
    pose proof (IH (fst (exec_act D b a))) as H.
    assert (Ha : nexts (told (snd (exec_act D b a))) + acted l <= acted (a :: l)).
    { destruct a as [[]|[]|]; destruct b; cbn; unfold nexts, acted; cbn; lia. }
    lia.
  Qed.
  Lemma allowed_step : forall s c, nexts (told (snd (step (denote T D) s c))) + m (fst (fst (step (denote T D) s c))) <= m (fst s).
  Proof.
    intros [q b] [n|t|]; cbn [step denote den_step den_n den_drop closed bare fst snd].
    - assert (H : forall r : oq T * list (act O F), acted (snd r) + m (fst r) <= m q ->
        nexts (told (snd (let '(q', l) := r in let '(d', w) := exec_acts D b l in ((q', d'), w)))) +
        m (fst (fst (let '(q', l) := r in let '(d', w) := exec_acts D b l in ((q', d'), w)))) <= m q).
      { intros [q' l] H. pose proof (exec_acted l b). cbn [fst snd] in H. destruct (exec_acts D b l). cbn [fst snd] in *. lia. }
      apply H. destruct n; auto.
    - cbn. lia.
    - specialize (Hdrop q b). destruct (on_drop T q b) as [q' l]. cbn [fst snd] in Hdrop.
      pose proof (exec_acted l b). destruct (exec_acts D b l). cbn [fst snd] in *. rewrite app_nil_r. lia.
  Qed.
  Theorem allowed : forall cs, nexts (told (run (denote T D) cs)) <= m (fst (s0 (denote T D))).
  Proof.
    intros cs. unfold run. cbn [denote w0 bare app]. rewrite told_app, nexts_app.
    pose proof (exec_acted (o_ctor T) false) as Hc. rewrite Hctor in Hc.
    change (den_ctor T D) with (exec_acts D false (o_ctor T)).
    assert (H : forall s, nexts (told (snd (run_from (denote T D) s cs))) <= m (fst s)).
    { induction cs as [|c r IH]; intros s; [apply Nat.le_0_l|]. rewrite run_cons, told_app, nexts_app.
      pose proof (allowed_step s c). specialize (IH (fst (step (denote T D) s c))). lia. }
    specialize (H (s0 (denote T D))). cbn [denote s0 fst] in *. change (den_ctor T D) with (exec_acts D false (o_ctor T)) in *. lia.
  Qed.
End Allowance.

Ltac allow :=
  intros; repeat (match goal with
                 | x : _ * _ |- _ => destruct x
                 | x : bool |- _ => destruct x
                 | |- context [match ?x with _ => _ end] => destruct x
                 | |- context [if ?x then _ else _] => destruct x
                 end; cbn in * ); auto; try lia.

Theorem find_once : forall A E (p : A -> bool) cs, nexts (told (run (denote (@t_find A E p) (bare A (find_error E))) cs)) <= 1.
Proof. intros. apply (@allowed _ _ _ _ (@t_find A E p) (fun q => if fst q then 0 else 1)); cbn; allow. Qed.
Theorem find_index_once : forall A E (p : A -> bool) cs, nexts (told (run (denote (@t_find_index A E p) (bare nat (find_error E))) cs)) <= 1.
Proof. intros. apply (@allowed _ _ _ _ (@t_find_index A E p) (fun q => if fst q then 0 else 1)); cbn; allow. Qed.
Theorem first_once : forall A E cs, nexts (told (run (denote (@t_first A E) (bare A (first_error E))) cs)) <= 1.
Proof. intros. apply (@allowed _ _ _ _ (@t_first A E) (fun q : bool => if q then 0 else 1)); cbn; allow. Qed.
Theorem element_at_once : forall A E i d cs, nexts (told (run (denote (@t_element_at A E i d) (bare A (element_at_error E))) cs)) <= 1.
Proof.
  intros. etransitivity; [apply (@allowed _ _ _ _ (@t_element_at A E i d) (fun q => if snd q then 0 else 1)); cbn|cbn; auto]; allow.
Qed.
Theorem take_at_most : forall A E n cs, nexts (told (run (denote (@t_take A E n) (bare A E)) cs)) <= n.
Proof.
  intros. apply (@allowed _ _ _ _ (@t_take A E n) fst); try (cbn; allow; fail).
  intros [[|c] cl] b a; cbn; auto. unfold acted. destruct (c - 0 =? 0), cl; cbn; lia.
Qed.

(** *** The callbacks of tap and tap_next *)
Lemma tap_effects : forall A E fn fe fc (cs : list (call A E)),
  effects (run (denote (@t_tap A E fn fe fc) (bare A E)) cs) = taps fn fe fc cs.
Proof.
  intros A E fn fe fc cs. unfold run. cbn [denote w0 bare app]. rewrite effects_app. cbn [den_ctor o_ctor t_tap simple_trans exec_acts snd].
  change (effects (X := ncall A E) []) with (@nil nat). cbn [app].
  assert (H1 : forall cs b, effects (snd (run_from (denote (@t_tap A E fn fe fc) (bare A E)) (true, b) cs)) = []).
  { clear cs. induction cs as [|c cs IH]; intros b; [reflexivity|]. rewrite run_cons, effects_app.
    destruct c as [[]|t|]; cbn; try apply IH. destruct b; cbn; apply IH. }
  enough (H : forall b, effects (snd (run_from (denote (@t_tap A E fn fe fc) (bare A E)) (false, b) cs)) = taps fn fe fc cs) by apply H.
  induction cs as [|c cs IH]; intros b; [reflexivity|]. rewrite run_cons, effects_app.
  destruct c as [[]|t|]; cbn; try (f_equal; apply IH); try (f_equal; apply H1); try apply IH. destruct b; cbn; apply IH.
Qed.
Lemma tap_next_effects : forall A E f (cs : list (call A E)),
  effects (run (denote (@t_tap_next A E f) (bare A E)) cs) =
  flat_map (fun c => match c with CN (Nxt a) => [f a] | _ => [] end) cs.
Proof.
  intros A E f cs. unfold run. cbn [denote w0 bare app]. rewrite effects_app. cbn [den_ctor o_ctor t_tap_next simple_trans exec_acts snd].
  change (effects (X := ncall A E) []) with (@nil nat). cbn [app].
  enough (H : forall b, effects (snd (run_from (denote (@t_tap_next A E f) (bare A E)) (tt, b) cs)) =
    flat_map (fun c => match c with CN (Nxt a) => [f a] | _ => [] end) cs) by apply H.
  induction cs as [|c cs IH]; intros b; [reflexivity|]. rewrite run_cons, effects_app.
  destruct c as [[]|t|]; cbn; try (f_equal; apply IH); try apply IH. destruct b; cbn; apply IH.
Qed.

(** *** on_next: what the callback told, then the value unless the destination is closed by then *)
Lemma on_next_step : forall A E (f : A -> list (ncall A E) * bool) q (b : bool) a,
  told (snd (step (denote (@t_on_next A E f) (bare A E)) (q, b) (CN (Nxt a)))) =
  fst (f a) ++ (if snd (f a) && negb b && forallb is_next (fst (f a)) then [Nxt a] else []).
Proof.
  intros. cbn [step denote den_step den_n t_on_next simple_trans on_next]. destruct (f a) as [l go]. cbn [fst snd].
  enough (H : told (snd (exec_acts (bare A E) b (map (fun n => Do n) l ++ (if go then [IfOpen (Nxt a)] else [])))) =
    l ++ (if go && negb b && forallb is_next l then [Nxt a] else [])).
  { destruct (exec_acts _ _ _). exact H. }
  revert b. induction l as [|n l IH]; intros b.
  - destruct go, b; reflexivity.
  - cbn [map app]. rewrite exec_cons. cbn [snd]. rewrite told_app. cbn [exec_act]. destruct n; cbn [bare step fst snd told flat_map app forallb is_next].
    + f_equal. rewrite IH. cbn [andb]. reflexivity.
    + f_equal. rewrite IH. cbn [negb]. now rewrite !andb_false_r.
    + f_equal. rewrite IH. cbn [negb]. now rewrite !andb_false_r.
    + f_equal. rewrite IH. cbn [negb]. now rewrite !andb_false_r.
Qed.
