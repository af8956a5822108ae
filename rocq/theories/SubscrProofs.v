(** Laws of subscribers and their preservation by operators. *)
From Verif Require Import Base SubscrModel.
Set Implicit Arguments.

Arguments den_n : simpl never.
Arguments den_drop : simpl never.
Arguments exec_acts : simpl never.

Section Events.
  Context {X : Type}.
  Definition is_eff (e : ev X) : Prop := match e with EEff _ => True | _ => False end.
  Definition not_td (e : ev X) : Prop := match e with ETd _ => False | _ => True end.

  Fixpoint tds (l : list (ev X)) : list nat :=
    match l with
    | [] => []
    | ETd n :: l' => n :: tds l'
    | _ :: l' => tds l'
    end.
  Fixpoint obs (l : list (ev X)) : list X :=
    match l with
    | [] => []
    | EObs x :: l' => x :: obs l'
    | _ :: l' => obs l'
    end.
  (** observer notifications and teardowns, in order, without callback effects *)
  Fixpoint vis (l : list (ev X)) : list (ev X) :=
    match l with
    | [] => []
    | EEff _ :: l' => vis l'
    | e :: l' => e :: vis l'
    end.
  Fixpoint effs (l : list (ev X)) : list nat :=
    match l with
    | [] => []
    | EEff n :: l' => n :: effs l'
    | _ :: l' => effs l'
    end.

  Lemma tds_app a b : tds (a ++ b) = tds a ++ tds b.
  Proof. induction a as [|[] a IH]; simpl; rewrite ?IH; reflexivity. Qed.
  Lemma obs_app a b : obs (a ++ b) = obs a ++ obs b.
  Proof. induction a as [|[] a IH]; simpl; rewrite ?IH; reflexivity. Qed.
  Lemma vis_app a b : vis (a ++ b) = vis a ++ vis b.
  Proof. induction a as [|[] a IH]; simpl; rewrite ?IH; reflexivity. Qed.
  Lemma effs_app a b : effs (a ++ b) = effs a ++ effs b.
  Proof. induction a as [|[] a IH]; simpl; rewrite ?IH; reflexivity. Qed.
  Lemma obs_vis l : obs (vis l) = obs l.
  Proof. induction l as [|[] l IH]; simpl; rewrite ?IH; reflexivity. Qed.
  Lemma tds_vis l : tds (vis l) = tds l.
  Proof. induction l as [|[] l IH]; simpl; rewrite ?IH; reflexivity. Qed.
  Lemma tds_map t : tds (map ETd t) = t.
  Proof. induction t as [|n t IH]; simpl; rewrite ?IH; reflexivity. Qed.
  Lemma obs_map_td t : obs (map ETd t) = [].
  Proof. induction t as [|n t IH]; simpl; rewrite ?IH; reflexivity. Qed.
  Lemma vis_map_td t : vis (map ETd t) = map ETd t.
  Proof. induction t as [|n t IH]; simpl; rewrite ?IH; reflexivity. Qed.

  Lemma eff_tds l : Forall is_eff l -> tds l = [].
  Proof. induction 1 as [|[] l Ha Hl IH]; simpl in *; tauto || auto. Qed.
  Lemma eff_obs l : Forall is_eff l -> obs l = [].
  Proof. induction 1 as [|[] l Ha Hl IH]; simpl in *; tauto || auto. Qed.
  Lemma eff_vis l : Forall is_eff l -> vis l = [].
  Proof. induction 1 as [|[] l Ha Hl IH]; simpl in *; tauto || auto. Qed.
  Lemma eff_not_td l : Forall is_eff l -> Forall not_td l.
  Proof. apply Forall_impl; intros []; simpl; tauto. Qed.
  Lemma not_td_tds l : Forall not_td l -> tds l = [].
  Proof. induction 1 as [|[] l Ha Hl IH]; simpl in *; tauto || auto. Qed.

  (** no notification after a teardown *)
  Fixpoint ordered (l : list (ev X)) : Prop :=
    match l with
    | [] => True
    | ETd _ :: r => obs r = [] /\ ordered r
    | _ :: r => ordered r
    end.
  Lemma ordered_not_td a b : Forall not_td a -> ordered b -> ordered (a ++ b).
  Proof. induction 1 as [|[] l Ha Hl IH]; simpl in *; tauto || auto. Qed.
  Lemma ordered_silent l : obs l = [] -> ordered l.
  Proof. induction l as [|[] l IH]; simpl; intros H; try discriminate; auto. Qed.
  Lemma ordered_app_silent a b : ordered a -> obs b = [] -> ordered (a ++ b).
  Proof.
    intros Ha Hb. induction a as [|[] a IH]; simpl in *; auto using ordered_silent.
    destruct Ha as [H1 H2]. rewrite obs_app, H1, Hb; auto.
  Qed.
End Events.

Definition is_term {I E} (n : ncall I E) : bool :=
  match n with Nxt _ => false | _ => true end.
Definition is_add {I E} (c : call I E) : bool :=
  match c with CAdd _ => true | _ => false end.
Definition closing {I E} (c : call I E) : bool :=
  match c with CN n => is_term n | CDrop => true | CAdd _ => false end.
Definition quiet_close {I E} (c : call I E) : bool :=
  match c with CN Uns => true | CDrop => true | _ => false end.

(** teardowns registered by a call history *)
Fixpoint added {I E} (cs : list (call I E)) : list nat :=
  match cs with
  | [] => []
  | CAdd t :: cs' => t ++ added cs'
  | _ :: cs' => added cs'
  end.

(** The outcome of a call on an open subscriber. *)
Definition outcome_open {X S} (pend : S -> list nat) (cl : S -> bool) (s : S) (r : S * list (ev X)) : Prop :=
  (cl (fst r) = false /\ Forall not_td (snd r) /\ pend (fst r) = pend s) \/
  (cl (fst r) = true /\ exists ns es, snd r = ns ++ map ETd (pend s) ++ es
                                      /\ Forall not_td ns /\ Forall is_eff es).

Record lawful {X I E} (S : subscriber X I E) (adds : list nat) : Type := {
  l_inv : st S -> Prop;
  l_pend : st S -> list nat;
  l_inv0 : l_inv (s0 S);
  l_init : (closed S (s0 S) = false /\ Forall not_td (w0 S) /\ l_pend (s0 S) = adds)
           \/ (closed S (s0 S) = true /\ tds (w0 S) = adds /\ ordered (w0 S));
  l_step : forall s c, l_inv s -> l_inv (fst (step S s c));
  l_closed : forall s c, l_inv s -> closed S s = true ->
     closed S (fst (step S s c)) = true /\
     match c with
     | CAdd t => snd (step S s c) = map ETd t
     | _ => Forall is_eff (snd (step S s c))
     end;
  l_open_add : forall s t, l_inv s -> closed S s = false ->
     closed S (fst (step S s (CAdd t))) = false /\
     snd (step S s (CAdd t)) = [] /\
     l_pend (fst (step S s (CAdd t))) = l_pend s ++ t;
  l_open : forall s c, l_inv s -> closed S s = false -> is_add c = false ->
     outcome_open l_pend (closed S) s (step S s c);
  l_term : forall s c, l_inv s -> closing c = true -> closed S (fst (step S s c)) = true;
  l_quiet : forall s c, l_inv s -> quiet_close c = true -> obs (snd (step S s c)) = [];
  l_mute : forall s c, l_inv s -> closed S s = true -> quiet_close c = true -> snd (step S s c) = []
}.

(** ** The sink is lawful *)
Lemma sink_lawful O F : lawful (sink O F) [].
Proof.
  refine (@Build_lawful _ _ _ (sink O F) [] (fun _ => True) sd_fin _ _ _ _ _ _ _ _ _); simpl; auto.
  - intros [cl fin] c _ Hc; simpl in Hc; subst; destruct c as [[]| |]; simpl; auto.
  - intros [cl fin] t _ Hc; simpl in Hc; subst; auto.
  - intros [cl fin] c _ Hc Ha; simpl in Hc; subst.
    destruct c as [[]| |]; simpl in *; try discriminate.
    + left; repeat split; auto. repeat constructor.
    + right; split; auto. exists [EObs (NError e)], []; rewrite app_nil_r; repeat split; repeat constructor.
    + right; split; auto. exists [EObs NComplete], []; rewrite app_nil_r; repeat split; repeat constructor.
    + right; split; auto. exists [], []; rewrite app_nil_r; repeat split; repeat constructor.
    + right; split; auto. exists [], []; rewrite app_nil_r; repeat split; repeat constructor.
  - intros [cl fin] c _ Hc; destruct cl, c as [[]| |]; simpl in *; auto; discriminate.
  - intros [cl fin] c _ Hc; destruct cl, c as [[]| |]; simpl in *; try discriminate; auto using obs_map_td.
  - intros [cl fin] c _ Hcl Hc; simpl in Hcl; subst; destruct c as [[]| |]; simpl in *; try discriminate; auto.
Qed.

(** ** Sequences of actions on a lawful destination *)
Definition act_term {O F} (a : act O F) : bool :=
  match a with Do n => is_term n | IfOpen n => is_term n | Emit _ => false end.
Definition acts_term {O F} (l : list (act O F)) : bool := existsb act_term l.
Definition act_quiet {O F} (a : act O F) : bool :=
  match a with Do Uns => true | IfOpen Uns => true | _ => false end.

Section Acts.
  Context {X O F : Type}.
  Variable D : subscriber X O F.
  Variable adds : list nat.
  Variable L : lawful D adds.

  Lemma exec_acts_cons d a l :
    exec_acts D d (a :: l) =
    (fst (exec_acts D (fst (exec_act D d a)) l),
     snd (exec_act D d a) ++ snd (exec_acts D (fst (exec_act D d a)) l)).
  Proof.
    change (exec_acts D d (a :: l)) with
      (let '(d1, w1) := exec_act D d a in let '(d2, w2) := exec_acts D d1 l in (d2, w1 ++ w2)).
    destruct (exec_act D d a) as [d1 w1]; simpl. destruct (exec_acts D d1 l); reflexivity. Qed.

  Lemma exec_act_inv d a : l_inv L d -> l_inv L (fst (exec_act D d a)).
  Proof.
    intros H; destruct a as [n|n|n]; simpl; auto using (l_step L).
    destruct (closed D d); simpl; auto using (l_step L).
  Qed.
  Lemma exec_acts_inv l d : l_inv L d -> l_inv L (fst (exec_acts D d l)).
  Proof.
    revert d; induction l as [|a l IH]; intros d H; [exact H|].
    rewrite exec_acts_cons; simpl. apply IH, exec_act_inv, H.
  Qed.

  Lemma exec_act_closed d a : l_inv L d -> closed D d = true ->
    closed D (fst (exec_act D d a)) = true /\ Forall is_eff (snd (exec_act D d a)).
  Proof.
    intros H Hc; destruct a as [n|n|n]; simpl.
    - apply (l_closed L d (CN n) H Hc).
    - rewrite Hc; simpl; auto.
    - split; auto. repeat constructor.
  Qed.
  Lemma exec_acts_closed l d : l_inv L d -> closed D d = true ->
    closed D (fst (exec_acts D d l)) = true /\ Forall is_eff (snd (exec_acts D d l)).
  Proof.
    revert d; induction l as [|a l IH]; intros d H Hc; [split; [exact Hc|constructor]|].
    rewrite exec_acts_cons; simpl.
    destruct (exec_act_closed d a H Hc) as [Hc1 He1].
    destruct (IH _ (exec_act_inv _ a H) Hc1) as [Hc2 He2].
    split; auto. apply Forall_app; auto.
  Qed.

  Lemma exec_act_open d a : l_inv L d -> closed D d = false ->
    outcome_open (l_pend L) (closed D) d (exec_act D d a).
  Proof.
    intros H Hc; destruct a as [n|n|n]; simpl.
    - apply (l_open L d (CN n) H Hc eq_refl).
    - rewrite Hc. apply (l_open L d (CN n) H Hc eq_refl).
    - left; repeat split; auto. repeat constructor.
  Qed.
  Lemma exec_acts_open l d : l_inv L d -> closed D d = false ->
    outcome_open (l_pend L) (closed D) d (exec_acts D d l).
  Proof.
    revert d; induction l as [|a l IH]; intros d H Hc.
    - left; repeat split; [exact Hc|constructor].
    - rewrite exec_acts_cons; simpl.
      pose proof (exec_act_inv _ a H) as Hi.
      destruct (exec_act_open d a H Hc) as [(Hc1 & Hn1 & Hp1)|(Hc1 & ns & es & Hw & Hns & Hes)].
      + destruct (IH _ Hi Hc1) as [(Hc2 & Hn2 & Hp2)|(Hc2 & ns & es & Hw & Hns & Hes)].
        * left; simpl; repeat split; auto. { apply Forall_app; auto. } congruence.
        * right; simpl; split; auto. exists (snd (exec_act D d a) ++ ns), es.
          rewrite Hw, Hp1, <- app_assoc; repeat split; auto. apply Forall_app; auto.
      + destruct (exec_acts_closed l _ Hi Hc1) as [Hc2 He2].
        right; simpl; split; auto. exists ns, (es ++ snd (exec_acts D (fst (exec_act D d a)) l)).
        rewrite Hw, <- !app_assoc; repeat split; auto. apply Forall_app; auto.
  Qed.

  Lemma exec_acts_term l d : l_inv L d -> acts_term l = true -> closed D (fst (exec_acts D d l)) = true.
  Proof.
    revert d; induction l as [|a l IH]; intros d H Ht; [discriminate|].
    rewrite exec_acts_cons; simpl in *.
    pose proof (exec_act_inv _ a H) as Hi.
    destruct (act_term a) eqn:Ea; simpl in Ht; [|apply IH; auto].
    apply (exec_acts_closed l); auto.
    destruct a as [n|n|n]; simpl in *; try discriminate.
    - apply (l_term L d (CN n)); auto.
    - destruct (closed D d) eqn:Ec; simpl; auto. apply (l_term L d (CN n)); auto.
  Qed.

  Lemma exec_acts_quiet l d : l_inv L d -> forallb act_quiet l = true -> obs (snd (exec_acts D d l)) = [].
  Proof.
    revert d; induction l as [|a l IH]; intros d H Ht; [reflexivity|].
    rewrite exec_acts_cons; simpl in *. apply andb_prop in Ht as [Ha Hl].
    rewrite obs_app, (IH _ (exec_act_inv _ a H) Hl), app_nil_r.
    destruct a as [[]|[]|n]; simpl in *; try discriminate.
    - apply (l_quiet L d (CN Uns)); auto.
    - destruct (closed D d); simpl; auto. apply (l_quiet L d (CN Uns)); auto.
  Qed.

  Lemma exec_acts_mute l d : l_inv L d -> closed D d = true -> forallb act_quiet l = true ->
    snd (exec_acts D d l) = [].
  Proof.
    revert d; induction l as [|a l IH]; intros d H Hc Ht; [reflexivity|].
    rewrite exec_acts_cons; simpl in *. apply andb_prop in Ht as [Ha Hl].
    destruct (exec_act_closed d a H Hc) as [Hc' _].
    rewrite (IH _ (exec_act_inv _ a H) Hc' Hl), app_nil_r.
    destruct a as [[]|[]|]; try discriminate; simpl.
    - apply (l_mute L); auto.
    - rewrite Hc; reflexivity.
  Qed.

  Lemma closed_mono d c : l_inv L d -> closed D d = true -> closed D (fst (step D d c)) = true.
  Proof. intros H Hc; apply (l_closed L d c H Hc). Qed.
End Acts.

(** ** Lawful operators *)
Record tlaw {I E O F} (T : trans I E O F) : Type := {
  done : oq T -> bool;
  tl_closed : forall q, oclosed T q = true -> done q = true;
  tl_init : forall b, done (o_init T b) = true -> b = true;
  tl_next : forall q b i, done (fst (on_next T q b i)) = true ->
      done q = true \/ b = true \/ acts_term (snd (on_next T q b i)) = true;
  tl_err : forall q b e, done q = true \/ b = true \/ acts_term (snd (on_error T q b e)) = true;
  tl_cmp : forall q b, done q = true \/ b = true \/ acts_term (snd (on_complete T q b)) = true;
  tl_uns : forall q b, done q = true \/ b = true \/ acts_term (snd (on_unsub T q b)) = true;
  tl_uns_quiet : forall q b, forallb act_quiet (snd (on_unsub T q b)) = true;
  tl_drop_quiet : forall q b, forallb act_quiet (snd (on_drop T q b)) = true
}.

Section DenoteLaw.
  Context {X I E O F : Type}.
  Variable T : trans I E O F.
  Variable TL : tlaw T.
  Variable D : subscriber X O F.
  Variable adds : list nat.
  Variable L : lawful D adds.

  Definition react (q : oq T) (b : bool) (n : ncall I E) : oq T * list (act O F) :=
    match n with
    | Nxt i => on_next T q b i
    | Err e => on_error T q b e
    | Cmp => on_complete T q b
    | Uns => on_unsub T q b
    end.

  Lemma den_n_eq q d n :
    den_n T D (q, d) n =
    ((fst (react q (closed D d) n), fst (exec_acts D d (snd (react q (closed D d) n)))),
     snd (exec_acts D d (snd (react q (closed D d) n)))).
  Proof.
    unfold den_n, react; destruct n; simpl;
    match goal with |- context [let '(_, _) := ?x in _] => destruct x as [q' l] end; simpl;
    destruct (exec_acts D d l); reflexivity.
  Qed.

  Lemma den_drop_eq q d :
    den_drop T D (q, d) =
    let r := on_drop T q (closed D d) in
    let d1 := exec_acts D d (snd r) in
    let d2 := step D (fst d1) CDrop in
    ((fst r, fst d2), snd d1 ++ snd d2).
  Proof.
    unfold den_drop; destruct (on_drop T q (closed D d)) as [q' l]; simpl.
    destruct (exec_acts D d l) as [d1 w1]; simpl. destruct (step D d1 CDrop); reflexivity.
  Qed.

  Definition dinv (s : oq T * st D) : Prop :=
    l_inv L (snd s) /\ (done TL (fst s) = true -> closed D (snd s) = true).

  Lemma react_done q b n : done TL (fst (react q b n)) = true \/ is_term n = true ->
    done TL q = true \/ b = true \/ acts_term (snd (react q b n)) = true.
  Proof.
    destruct n; simpl; intros H.
    - destruct H as [H|H]; [|discriminate]. apply (tl_next TL); auto.
    - apply (tl_err TL).
    - apply (tl_cmp TL).
    - apply (tl_uns TL).
  Qed.

  (** closed iff destination closed, in invariant states *)
  Lemma den_closed q d : dinv (q, d) -> oclosed T q || closed D d = closed D d.
  Proof.
    intros [Hi Hd]; simpl in *. destruct (oclosed T q) eqn:Eq; simpl; auto.
    symmetry; apply Hd, (tl_closed TL), Eq.
  Qed.

  Lemma react_closes q d n : dinv (q, d) ->
    done TL (fst (react q (closed D d) n)) = true \/ is_term n = true ->
    closed D (fst (exec_acts D d (snd (react q (closed D d) n)))) = true.
  Proof.
    intros [Hi Hd] H; simpl in *.
    destruct (react_done q (closed D d) n H) as [H1|[H1|H1]].
    - apply (exec_acts_closed L); auto.
    - apply (exec_acts_closed L); auto.
    - apply (exec_acts_term L); auto.
  Qed.

  Lemma dinv_step s c : dinv s -> dinv (fst (den_step T D s c)).
  Proof.
    destruct s as [q d]; intros H. destruct c as [n|t|]; simpl.
    - rewrite den_n_eq; simpl. split; simpl.
      + apply (exec_acts_inv L), H.
      + intros Hd. apply react_closes; auto.
    - destruct H as [Hi Hd]; simpl in *.
      destruct (step D d (CAdd t)) as [d' w] eqn:Es; simpl. split; simpl.
      + change d' with (fst (d', w)); rewrite <- Es; apply (l_step L); auto.
      + intros Hq. change d' with (fst (d', w)); rewrite <- Es; apply (closed_mono L); auto.
    - rewrite den_drop_eq; simpl. destruct H as [Hi Hd]; simpl in *. split; simpl.
      + apply (l_step L), (exec_acts_inv L); auto.
      + intros _. apply (l_term L); [apply (exec_acts_inv L); auto|reflexivity].
  Qed.

  Lemma denote_lawful : lawful (denote T D) adds.
  Proof.
    refine (@Build_lawful _ _ _ (denote T D) adds dinv (fun s => l_pend L (snd s)) _ _ _ _ _ _ _ _ _).
    - (* inv0 *)
      split; simpl; unfold den_ctor.
      + apply (exec_acts_inv L), (l_inv0 L).
      + intros Hd. apply (tl_init TL) in Hd. exact Hd.
    - (* init *)
      pose proof (l_inv0 L) as Hi0.
      assert (Hi1 : l_inv L (fst (den_ctor T D))) by (apply (exec_acts_inv L), Hi0).
      assert (Hcl : closed (denote T D) (s0 (denote T D)) = closed D (fst (den_ctor T D))).
      { simpl. apply den_closed. split; auto. apply (tl_init TL). }
      rewrite Hcl; simpl. unfold den_ctor in *.
      destruct (l_init L) as [(Hc & Hw & Hp)|(Hc & Ht & Ho)].
      + destruct (exec_acts_open L (o_ctor T) (s0 D) Hi0 Hc) as [(Hc2 & Hn2 & Hp2)|(Hc2 & ns & es & Hw2 & Hns & Hes)].
        * left; repeat split; auto. { apply Forall_app; auto. } congruence.
        * right; split; auto. rewrite Hw2, !tds_app, (not_td_tds Hw), (not_td_tds Hns), (eff_tds Hes), tds_map, app_nil_r; simpl; split; auto.
          apply ordered_not_td; auto. apply ordered_not_td; auto.
          apply ordered_silent. rewrite obs_app, obs_map_td, (eff_obs Hes); reflexivity.
      + destruct (exec_acts_closed L (o_ctor T) (s0 D) Hi0 Hc) as [Hc2 He2].
        right; split; auto. rewrite tds_app, (eff_tds He2), app_nil_r; split; auto.
        apply ordered_app_silent; auto. apply eff_obs, He2.
    - intros s c; apply dinv_step.
    - (* closed *)
      intros [q d] c H Hc. pose proof (dinv_step c H) as Hs.
      assert (Hcd : closed D d = true) by (rewrite <- (den_closed H); exact Hc).
      destruct H as [Hi Hd]; simpl in Hi, Hd.
      change (closed (denote T D) (fst (step (denote T D) (q, d) c)))
        with (oclosed T (fst (fst (den_step T D (q, d) c))) || closed D (snd (fst (den_step T D (q, d) c)))).
      destruct c as [n|t|]; simpl.
      + rewrite den_n_eq; simpl.
        destruct (exec_acts_closed L (snd (react q (closed D d) n)) d Hi Hcd) as [H1 H2].
        split; auto. rewrite H1; apply orb_true_r.
      + destruct (l_closed L d (CAdd t) Hi Hcd) as [H1 H2].
        destruct (step D d (CAdd t)) as [d' w]; simpl in *. rewrite H1, orb_true_r; auto.
      + rewrite den_drop_eq; simpl.
        destruct (exec_acts_closed L (snd (on_drop T q (closed D d))) d Hi Hcd) as [H1 H2].
        destruct (l_closed L _ CDrop (exec_acts_inv L (snd (on_drop T q (closed D d))) d Hi) H1) as [H3 H4].
        rewrite H3, orb_true_r; split; auto. apply Forall_app; auto.
    - (* open add *)
      intros [q d] t H Hc; simpl in Hc. apply orb_false_elim in Hc as [Hq Hcd].
      destruct H as [Hi Hd]; simpl in Hi, Hd.
      destruct (l_open_add L d t Hi Hcd) as (H1 & H2 & H3).
      simpl. destruct (step D d (CAdd t)) as [d' w]; simpl in *.
      rewrite Hq, H1; auto.
    - (* open *)
      intros [q d] c H Hc Ha; pose proof (dinv_step c H) as Hs; simpl in Hc.
      apply orb_false_elim in Hc as [Hq Hcd].
      pose proof H as H'. destruct H as [Hi Hd]; simpl in Hi, Hd.
      assert (Hcl : closed (denote T D) (fst (den_step T D (q, d) c)) = closed D (snd (fst (den_step T D (q, d) c)))).
      { destruct (fst (den_step T D (q, d) c)) as [q' d'] eqn:Ef; simpl. apply den_closed; auto. }
      enough (G : outcome_open (fun s => l_pend L (snd s)) (fun s : oq T * st D => closed D (snd s))
                    (q, d) (den_step T D (q, d) c)).
      { destruct G as [(G1 & G2)|(G1 & G2)]; [left|right];
        (split; [etransitivity; [exact Hcl|exact G1]|exact G2]). }
      unfold outcome_open.
      destruct c as [n|t|]; try discriminate; simpl.
      + rewrite den_n_eq; simpl.
        destruct (exec_acts_open L (snd (react q (closed D d) n)) d Hi Hcd) as [(Hc2 & Hn2 & Hp2)|(Hc2 & ns & es & Hw2 & Hns & Hes)];
          [left; auto|right; split; auto; exists ns, es; auto].
      + rewrite den_drop_eq; simpl. rewrite Hcd.
        set (l := snd (on_drop T q false)).
        pose proof (exec_acts_inv L l d Hi) as Hi2.
        destruct (exec_acts_open L l d Hi Hcd) as [(Hc2 & Hn2 & Hp2)|(Hc2 & ns & es & Hw2 & Hns & Hes)].
        * destruct (l_open L _ CDrop Hi2 Hc2 eq_refl) as [(Hc3 & Hn3 & Hp3)|(Hc3 & ns & es & Hw3 & Hns & Hes)].
          { left; repeat split; auto. { apply Forall_app; auto. } congruence. }
          { right; split; auto. exists (snd (exec_acts D d l) ++ ns), es.
            rewrite Hw3, Hp2, <- app_assoc; repeat split; auto. apply Forall_app; auto. }
        * destruct (l_closed L _ CDrop Hi2 Hc2) as [Hc3 He3].
          right; split; auto. exists ns, (es ++ snd (step D (fst (exec_acts D d l)) CDrop)).
          rewrite Hw2, <- !app_assoc; repeat split; auto. apply Forall_app; auto.
    - (* term *)
      intros [q d] c H Hc. simpl.
      destruct c as [n|t|]; try discriminate; simpl in *.
      + rewrite den_n_eq; simpl. rewrite react_closes; auto using orb_true_r.
      + rewrite den_drop_eq; simpl.
        rewrite (l_term L) by (try reflexivity; apply (exec_acts_inv L), H). apply orb_true_r.
    - (* quiet *)
      intros [q d] c H Hc. destruct H as [Hi Hd]; simpl in Hi, Hd. simpl.
      destruct c as [[]|t|]; try discriminate; simpl.
      + change (den_n T D (q, d) Uns) with (den_n T D (q, d) (Uns : ncall I E)).
        rewrite den_n_eq; simpl. apply (exec_acts_quiet L); auto. apply (tl_uns_quiet TL).
      + rewrite den_drop_eq; simpl. rewrite obs_app.
        rewrite (exec_acts_quiet L) by (auto; apply (tl_drop_quiet TL)).
        apply (l_quiet L); [apply (exec_acts_inv L); auto|reflexivity].
    - (* mute *)
      intros [q d] c H Hcl Hc.
      assert (Hcd : closed D d = true) by (rewrite <- (den_closed H); exact Hcl).
      destruct H as [Hi Hd]; simpl in Hi, Hd. simpl.
      destruct c as [[]|t|]; try discriminate; simpl.
      + change (den_n T D (q, d) Uns) with (den_n T D (q, d) (Uns : ncall I E)).
        rewrite den_n_eq; simpl. apply (exec_acts_mute L); auto. apply (tl_uns_quiet TL).
      + rewrite den_drop_eq; simpl.
        rewrite (exec_acts_mute L) by (auto; apply (tl_drop_quiet TL)). simpl.
        apply (l_mute L); [apply (exec_acts_inv L); auto| |reflexivity].
        apply (exec_acts_closed L); auto.
  Defined.
End DenoteLaw.

(** ** Consequences of lawfulness for whole histories *)
Section Runs.
  Context {X I E : Type}.
  Variable S : subscriber X I E.
  Variable adds : list nat.
  Variable L : lawful S adds.

  Lemma run_from_cons s c cs :
    run_from S s (c :: cs) =
    (fst (run_from S (fst (step S s c)) cs),
     snd (step S s c) ++ snd (run_from S (fst (step S s c)) cs)).
  Proof. simpl. destruct (step S s c) as [s1 w1]; simpl. destruct (run_from S s1 cs); reflexivity. Qed.

  Lemma run_from_app s a b :
    run_from S s (a ++ b) =
    (fst (run_from S (fst (run_from S s a)) b),
     snd (run_from S s a) ++ snd (run_from S (fst (run_from S s a)) b)).
  Proof.
    revert s; induction a as [|c a IH]; intros s.
    - simpl. destruct (run_from S s b); reflexivity.
    - rewrite <- app_comm_cons, run_from_cons, IH, (run_from_cons s c a); simpl.
      rewrite app_assoc; reflexivity.
  Qed.

  Lemma run_from_inv cs s : l_inv L s -> l_inv L (fst (run_from S s cs)).
  Proof.
    revert s; induction cs as [|c cs IH]; intros s H; [exact H|].
    rewrite run_from_cons; simpl. apply IH, (l_step L), H.
  Qed.

  Lemma final_inv cs : l_inv L (final S cs).
  Proof. apply run_from_inv, (l_inv0 L). Qed.

  (** A closed subscriber stays closed, shows nothing, and runs new teardowns at once. *)
  Lemma run_from_closed cs s : l_inv L s -> closed S s = true ->
    closed S (fst (run_from S s cs)) = true /\
    obs (snd (run_from S s cs)) = [] /\
    vis (snd (run_from S s cs)) = map ETd (added cs).
  Proof.
    revert s; induction cs as [|c cs IH]; intros s H Hc; [simpl; auto|].
    rewrite run_from_cons; simpl.
    destruct (l_closed L s c H Hc) as [Hc1 He1].
    destruct (IH _ (l_step L s c H) Hc1) as (Hc2 & Ho2 & Hv2).
    rewrite obs_app, vis_app, Ho2, Hv2. split; [auto|].
    destruct c as [n|t|]; simpl.
    - rewrite (eff_obs He1), (eff_vis He1); auto.
    - rewrite He1, obs_map_td, vis_map_td, map_app; auto.
    - rewrite (eff_obs He1), (eff_vis He1); auto.
  Qed.

  Lemma run_from_open cs s : l_inv L s -> closed S s = false ->
    tds (snd (run_from S s cs)) = (if closed S (fst (run_from S s cs)) then l_pend L s ++ added cs else [])
    /\ (closed S (fst (run_from S s cs)) = false ->
        l_pend L (fst (run_from S s cs)) = l_pend L s ++ added cs).
  Proof.
    revert s; induction cs as [|c cs IH]; intros s H Hc.
    - simpl. rewrite Hc, app_nil_r; auto.
    - rewrite run_from_cons; simpl. pose proof (l_step L s c H) as Hi.
      destruct (is_add c) eqn:Ea.
      + destruct c as [|t|]; try discriminate; simpl in *.
        destruct (l_open_add L s t H Hc) as (H1 & H2 & H3).
        rewrite H2; simpl. specialize (IH _ Hi H1). rewrite H3 in IH. rewrite <- !app_assoc in IH. exact IH.
      + assert (Hadd : added (c :: cs) = added cs) by (destruct c; try discriminate; reflexivity).
        replace (match c with CAdd t => t ++ added cs | _ => added cs end) with (added cs)
          by (destruct c; try discriminate; reflexivity).
        rewrite tds_app.
        destruct (l_open L s c H Hc Ea) as [(Hc1 & Hn & Hp)|(Hc1 & ns & es & Hw & Hns & Hes)].
        * rewrite (not_td_tds Hn); simpl. specialize (IH _ Hi Hc1). rewrite Hp in IH. exact IH.
        * destruct (run_from_closed cs _ Hi Hc1) as (Hc2 & Ho2 & Hv2).
          rewrite Hc2, Hw, !tds_app, (not_td_tds Hns), (eff_tds Hes), tds_map, app_nil_r; simpl.
          rewrite <- tds_vis, Hv2, tds_map. split; auto. discriminate.
  Qed.

  Lemma run_tds cs :
    tds (run S cs) = if closed S (final S cs) then adds ++ added cs else [].
  Proof.
    unfold run, final. rewrite tds_app. pose proof (l_inv0 L) as Hi.
    destruct (l_init L) as [(Hc & Hw & Hp)|(Hc & Ht & Ho)].
    - rewrite (not_td_tds Hw); simpl. rewrite <- Hp. apply run_from_open; auto.
    - destruct (run_from_closed cs _ Hi Hc) as (H1 & _ & H3).
      rewrite H1, Ht, <- (tds_vis (snd _)), H3, tds_map; auto.
  Qed.

  Lemma run_from_ordered cs s : l_inv L s -> closed S s = false -> ordered (snd (run_from S s cs)).
  Proof.
    revert s; induction cs as [|c cs IH]; intros s H Hc; [exact Logic.I|].
    rewrite run_from_cons; simpl. pose proof (l_step L s c H) as Hi.
    destruct (is_add c) eqn:Ea.
    - destruct c as [n|t|]; try discriminate.
      destruct (l_open_add L s t H Hc) as (H1 & H2 & H3). rewrite H2; simpl. apply IH; auto.
    - destruct (l_open L s c H Hc Ea) as [(Hc2 & Hn2 & Hp2)|(Hc2 & ns & es & Hw2 & Hns & Hes)].
      + apply ordered_not_td; auto.
      + rewrite Hw2, <- app_assoc. apply ordered_not_td; auto. apply ordered_silent.
        destruct (run_from_closed cs _ Hi Hc2) as (_ & Hq & _).
        rewrite !obs_app, obs_map_td, (eff_obs Hes), Hq; reflexivity.
  Qed.
  Lemma run_ordered cs : ordered (run S cs).
  Proof.
    unfold run. pose proof (l_inv0 L) as Hi.
    destruct (l_init L) as [(Hc & Hw & Hp)|(Hc & Ht & Ho)].
    - apply ordered_not_td; auto. apply run_from_ordered; auto.
    - apply ordered_app_silent; auto. apply (run_from_closed cs _ Hi Hc).
  Qed.

  Lemma final_closed_after cs c : closing c = true -> closed S (final S (cs ++ [c])) = true.
  Proof.
    intros Hc. unfold final. rewrite run_from_app; simpl.
    pose proof (l_term L _ c (final_inv cs) Hc) as H. unfold final in H.
    destruct (step S (fst (run_from S (s0 S) cs)) c); simpl in *; auto.
  Qed.
End Runs.
