(** Proofs about the ADSR envelope. *)
From Coq Require Import NArith.
From Verif Require Import Base FloatModel AdsrModel.
Set Implicit Arguments.

Section Envelope.
Variable sample : curve.
Notation calculate_output := (AdsrModel.calculate_output sample).
Notation frames := (AdsrModel.frames sample).
Notation adsr_frame := (AdsrModel.adsr_frame sample).

Definition rank (p : phase) : nat :=
  match p with PNone => 0 | PAttack => 1 | PDecay => 2 | PSustain => 3 | PRelease => 4 end.
Definition time (l : list (bool * nat)) : nat := fold_right (fun f n => snd f + n) 0 l.
Definition active (f : bool * nat) : Prop := fst f = true.
Definition inactive (f : bool * nat) : Prop := fst f = false.
Definition ends (P : bool * nat -> Prop) (l : list (bool * nat)) : Prop := exists l' f, l = l' ++ [f] /\ P f.

(** What comes out for these frames; the last of it. *)
Definition signals (e : envelope) (l : list (bool * nat)) : list signal := fst (frames e es_new l).
Definition final (e : envelope) (l : list (bool * nat)) : signal := last (signals e l) (mkSig PNone 0%N 0 f_zero).

(** The phase a given time after an activation. *)
Definition risen (e : envelope) (t : nat) : phase :=
  if t <? e_attack e then PAttack else if t <? e_attack e + e_decay e then PDecay else PSustain.
(** The value then, and some time after the deactivation at the value [v]. *)
Definition share (t len : nat) : f32 := clamp01 (f_div (secs t) (f_max (secs len) f_epsilon)).
Definition rise (e : envelope) (t : nat) : f32 :=
  clamp01 (if t <? e_attack e then sample (or_linear (e_attack_easing e)) f_zero f_one (share t (e_attack e))
           else if t <? e_attack e + e_decay e
           then sample (or_linear (e_decay_easing e)) f_one (clamp01 (e_sustain e)) (share (t - e_attack e) (e_decay e))
           else clamp01 (e_sustain e)).
Definition fall (e : envelope) (v : f32) (t : nat) : f32 :=
  clamp01 (sample (or_linear (e_release_easing e)) v f_zero (share t (e_release e))).

Lemma evaluate_rise : forall e t o, evaluate sample e true t o None = (rise e t, risen e t).
Proof.
  intros. unfold evaluate, current_phase, rise, risen, position, share. destruct (_ <? _); [now rewrite !Nat.sub_0_r|].
  destruct (_ <? _); auto. replace (e_attack e + e_decay e - e_attack e) with (e_decay e) by lia. auto.
Qed.
Lemma clamp_zero : clamp01 f_zero = f_zero.
Proof. reflexivity. Qed.
Lemma evaluate_fall : forall e d w v, evaluate sample e false (d + w) (Some v) (Some d) =
  if w <? e_release e then (fall e v w, PRelease) else (f_zero, PNone).
Proof.
  intros. unfold evaluate, current_phase, fall, position, share.
  replace (d + w <? d + e_release e) with (w <? e_release e).
  2:{ destruct (Nat.ltb_spec w (e_release e)), (Nat.ltb_spec (d + w) (d + e_release e)); auto; lia. }
  destruct (_ <? _); auto. replace (d + w - d) with w by lia. replace (d + e_release e - d) with (e_release e) by lia. auto.
Qed.

(** *** The flags *)
Lemma flags_named : forall from to,
  (from = to -> phase_transition from to = 0%N) /\
  (from <> PNone -> to = PNone -> phase_transition from to = Stop) /\
  (to <> PNone -> rank to < rank from -> phase_transition from to = N.lor Stop Restart) /\
  (rank from < rank to ->
   flagged (phase_transition from to) Stop = false /\ flagged (phase_transition from to) Restart = false /\
   forall p, p <> PNone ->
   (flagged (phase_transition from to) (on_enter p) = true <->
    rank from < rank p <= rank to /\ (p = PSustain -> to = PSustain))).
Proof.
  intros [] []; repeat split; intros; try reflexivity; try discriminate; try congruence; try (simpl in *; lia);
    try match goal with p : phase |- _ => destruct p; simpl in *; try congruence; try lia; try discriminate end;
    try (vm_compute in H1; discriminate); try reflexivity.
  all: try match goal with H : _ /\ _ |- _ => destruct H as [? K]; try (specialize (K eq_refl); discriminate) end; simpl in *; try lia; try reflexivity.
Qed.

(** *** Invariant *)
Definition inv (e : envelope) (s : env_state) : Prop :=
  if es_in s then
    (es_out s = PAttack \/ es_out s = PDecay \/ es_out s = PSustain) /\ es_off s = None /\ es_off_value s = None /\
    es_out s = risen e (es_t s) /\
    (es_phase s = es_out s \/ es_phase s = PNone /\ es_t s = 0)
  else
    es_out s = PNone /\ es_phase s = PNone /\ es_off s = None /\ es_off_value s = None /\ es_t s = 0 /\ es_value s = f_zero \/
    es_out s = PRelease /\ es_phase s = PRelease /\ exists d v, es_off s = Some d /\ es_off_value s = Some v /\ d <= es_t s < d + e_release e.

Lemma inv_new : forall e, inv e es_new.
Proof. intros. left. auto 10. Qed.

Lemma risen_cases : forall e t, risen e t = PAttack \/ risen e t = PDecay \/ risen e t = PSustain.
Proof. intros. unfold risen. destruct (_ <? _); auto. destruct (_ <? _); auto. Qed.

Lemma risen_mono : forall e t t', t <= t' -> rank (risen e t) <= rank (risen e t').
Proof.
  intros e t t' H. unfold risen.
  destruct (Nat.ltb_spec t (e_attack e)), (Nat.ltb_spec t' (e_attack e)); simpl; try lia;
  destruct (Nat.ltb_spec t (e_attack e + e_decay e)), (Nat.ltb_spec t' (e_attack e + e_decay e)); simpl; lia.
Qed.

(** One frame, by what came before and what comes in. *)
Ltac frame := cbn -[Nat.ltb phase_transition flagged risen rise fall evaluate].
Lemma fr_rise : forall e d s, inv e s -> es_in s = false ->
  calculate_output e true d s =
    (mkSig (risen e 0) (phase_transition (es_out s) (risen e 0)) 0 (rise e 0),
     mkES (if phase_eqb (es_out s) PNone then risen e 0 else PNone) None None 0 true (risen e 0) (rise e 0)).
Proof.
  intros e d s HI Hin. unfold inv in HI. rewrite Hin in HI. unfold AdsrModel.calculate_output. rewrite Hin.
  frame. rewrite evaluate_rise.
  destruct HI as [(Ho & _)|(Ho & _)]; rewrite Ho;
    destruct (risen_cases e 0) as [Hr|[Hr|Hr]]; rewrite Hr; reflexivity.
Qed.

Lemma fr_up : forall e d s, inv e s -> es_in s = true ->
  let t := if phase_eqb (es_phase s) PNone then 0 else es_t s + d in
  calculate_output e true d s =
    (mkSig (risen e t) (phase_transition (es_out s) (risen e t)) t (rise e t), mkES (risen e t) None None t true (risen e t) (rise e t)) /\
  rank (es_out s) <= rank (risen e t).
Proof.
  intros e d s HI Hin. unfold inv in HI. rewrite Hin in HI. destruct HI as (Ho & Hf & Hv & Hr & Hp).
  unfold AdsrModel.calculate_output. rewrite Hin. frame. rewrite Hf, Hv, evaluate_rise.
  set (t := if phase_eqb (es_phase s) PNone then es_t s else es_t s + d).
  set (t' := if phase_eqb (es_phase s) PNone then 0 else es_t s + d).
  assert (Ht : t = t').
  { unfold t, t'. destruct Hp as [Hp|[Hp Hz]]; rewrite Hp; [destruct Ho as [->|[->| ->]]; reflexivity|rewrite Hz; reflexivity]. }
  assert (Hm : rank (es_out s) <= rank (risen e t')).
  { rewrite Hr. apply risen_mono. rewrite <- Ht. unfold t. destruct phase_eqb; lia. }
  rewrite Ht. split; [|exact Hm].
  destruct (risen_cases e t') as [Hx|[Hx|Hx]]; rewrite Hx in *; destruct Ho as [Ho|[Ho|Ho]]; rewrite Ho in *; simpl in Hm; try lia; reflexivity.
Qed.

Lemma fr_fall : forall e d s, inv e s -> es_in s = true ->
  let w := if phase_eqb (es_phase s) PNone then 0 else d in
  let p := if w <? e_release e then PRelease else PNone in
  let v := if w <? e_release e then fall e (es_value s) w else f_zero in
  exists k,
  calculate_output e false d s =
    (mkSig p (phase_transition (es_out s) p) k v,
     if w <? e_release e then mkES PRelease (Some (es_t s)) (Some (es_value s)) (es_t s + w) false PRelease v
     else mkES PNone None None 0 false PNone f_zero).
Proof.
  intros e d s HI Hin. unfold inv in HI. rewrite Hin in HI. destruct HI as (Ho & Hf & Hv & Hr & Hp).
  unfold AdsrModel.calculate_output. rewrite Hin. frame.
  set (w := if phase_eqb (es_phase s) PNone then 0 else d).
  assert (Ht : (if phase_eqb (es_phase s) PNone then es_t s else es_t s + d) = es_t s + w).
  { unfold w. destruct phase_eqb; lia. }
  rewrite Ht, evaluate_fall.
  destruct (w <? e_release e); destruct Ho as [Ho|[Ho|Ho]]; rewrite Ho; eexists; reflexivity.
Qed.

Lemma fr_down : forall e d s, inv e s -> es_in s = false ->
  match es_off s with
  | Some x =>
      let p := if es_t s + d <? x + e_release e then PRelease else PNone in
      exists k v0, es_off_value s = Some v0 /\
      let v := if es_t s + d <? x + e_release e then fall e v0 (es_t s + d - x) else f_zero in
      calculate_output e false d s =
        (mkSig p (phase_transition PRelease p) k v,
         if es_t s + d <? x + e_release e then mkES PRelease (Some x) (Some v0) (es_t s + d) false PRelease v else mkES PNone None None 0 false PNone f_zero)
  | None => calculate_output e false d s = (mkSig PNone 0%N 0 f_zero, es_new) /\ s = es_new
  end.
Proof.
  intros e d s HI Hin. unfold inv in HI. rewrite Hin in HI.
  destruct HI as [(Ho & Hp & Hf & Hv & Ht & Hz)|(Ho & Hp & x & v0 & Hf & Hv & Ht)]; rewrite Hf.
  - destruct s; simpl in *; subst. split; reflexivity.
  - unfold AdsrModel.calculate_output. rewrite Hin. frame. rewrite Hf, Hp, Ho, Hv. frame.
    assert (Q : evaluate sample e false (es_t s + d) (Some v0) (Some x) = if es_t s + d - x <? e_release e then (fall e v0 (es_t s + d - x), PRelease) else (f_zero, PNone)).
    { rewrite <- (evaluate_fall e x). f_equal. lia. }
    rewrite Q. replace (es_t s + d <? x + e_release e) with (es_t s + d - x <? e_release e).
    2:{ destruct (Nat.ltb_spec (es_t s + d - x) (e_release e)), (Nat.ltb_spec (es_t s + d) (x + e_release e)); auto; lia. }
    destruct (es_t s + d - x <? e_release e); eexists _, v0; split; reflexivity.
Qed.

Lemma inv_step : forall e a d s, inv e s -> inv e (snd (calculate_output e a d s)) /\
  es_in (snd (calculate_output e a d s)) = a /\ es_out (snd (calculate_output e a d s)) = g_phase (fst (calculate_output e a d s)) /\
  g_flags (fst (calculate_output e a d s)) = phase_transition (es_out s) (g_phase (fst (calculate_output e a d s))).
Proof.
  intros e a d s HI. destruct a.
  - destruct (es_in s) eqn:Hin.
    + destruct (@fr_up _ d _ HI Hin) as [-> _]. simpl. repeat split; auto. apply risen_cases.
    + rewrite (@fr_rise _ d _ HI Hin). simpl. repeat split; auto; [apply risen_cases|]. destruct phase_eqb; auto.
  - destruct (es_in s) eqn:Hin.
    + destruct (@fr_fall _ d _ HI Hin) as [k ->]. cbn [fst snd g_phase g_flags]. set (w := if phase_eqb _ _ then 0 else d). destruct (Nat.ltb_spec w (e_release e)); (split; [|auto]).
      * right. cbn. repeat split; auto. exists (es_t s), (es_value s). repeat split; auto; lia.
      * left. auto 10.
    + pose proof (@fr_down _ d _ HI Hin) as HD. destruct (es_off s) as [x|] eqn:Hf.
      * destruct HD as (k & v0 & Hv0 & ->). unfold inv in HI. rewrite Hin in HI. destruct HI as [(Ho & Hp & Hf2 & Ht)|(Ho & Hp & y & v & Hf2 & Hv & Ht)]; [congruence|].
        rewrite Hf in Hf2. inversion Hf2; subst y. rewrite Ho. cbn [fst snd g_phase g_flags]. destruct (Nat.ltb_spec (es_t s + d) (x + e_release e)); (split; [|auto]).
        -- right. cbn. repeat split; auto. exists x, v0. repeat split; auto; lia.
        -- left. auto 10.
      * destruct HD as [-> ->]. cbn. repeat split; auto.
Qed.

(** *** Runs *)
Lemma frames_app : forall e l l' s,
  frames e s (l ++ l') = (fst (frames e s l) ++ fst (frames e (snd (frames e s l)) l'),
                          snd (frames e (snd (frames e s l)) l')).
Proof.
  intros e l. induction l as [|[a d] l IH]; intros l' s; cbn [frames app]; [cbn [fst snd app]; now destruct (frames e s l')|].
  destruct (calculate_output e a d s) as [g s1]. rewrite IH. destruct (frames e s1 l) as [gs s2]. cbn [fst snd].
  destruct (frames e s2 l'); reflexivity.
Qed.

Definition after (e : envelope) (l : list (bool * nat)) : env_state := snd (frames e es_new l).

Lemma after_snoc : forall e l a d, after e (l ++ [(a, d)]) = snd (calculate_output e a d (after e l)).
Proof. intros. unfold after. rewrite frames_app. cbn [frames fst snd]. destruct (calculate_output _ _ _ _). reflexivity. Qed.
Lemma signals_snoc : forall e l a d, signals e (l ++ [(a, d)]) = signals e l ++ [fst (calculate_output e a d (after e l))].
Proof. intros. unfold signals, after. rewrite frames_app. cbn [frames fst snd]. destruct (calculate_output _ _ _ _). reflexivity. Qed.
Lemma final_snoc : forall e l a d, final e (l ++ [(a, d)]) = fst (calculate_output e a d (after e l)).
Proof. intros. unfold final. rewrite signals_snoc. apply last_last. Qed.

Lemma value_step : forall e a d s, es_value (snd (calculate_output e a d s)) = g_value (fst (calculate_output e a d s)).
Proof. intros. unfold AdsrModel.calculate_output. destruct (evaluate _ _ _ _ _ _). reflexivity. Qed.
Lemma after_value : forall e l, es_value (after e l) = g_value (final e l).
Proof. intros e l. destruct l as [|[a d] l _] using rev_ind; [reflexivity|]. rewrite after_snoc, final_snoc. apply value_step. Qed.
Lemma after_inv : forall e l, inv e (after e l) /\ es_out (after e l) = g_phase (final e l).
Proof.
  intros e l. induction l as [|[a d] l [IH _]] using rev_ind; [split; [apply inv_new|reflexivity]|].
  rewrite after_snoc, final_snoc. destruct (@inv_step _ a d _ IH) as (H1 & _ & H2 & _). auto.
Qed.
Lemma after_in : forall e l a d, es_in (after e (l ++ [(a, d)])) = a.
Proof. intros. rewrite after_snoc. destruct (after_inv e l) as [HI _]. destruct (@inv_step _ a d _ HI) as (_ & H & _). exact H. Qed.
Lemma after_ends_in : forall e l, l = [] \/ ends inactive l -> es_in (after e l) = false.
Proof. intros e l [->|(l' & [a d] & -> & Ha)]; [reflexivity|]. rewrite after_in. exact Ha. Qed.
Lemma after_ends_act : forall e l, ends active l -> es_in (after e l) = true.
Proof. intros e l (l' & [a d] & -> & Ha). rewrite after_in. exact Ha. Qed.

(** *** While active *)
Definition restarts (e : envelope) (l : list (bool * nat)) : bool := negb (phase_eqb (g_phase (final e l)) PNone).

Lemma time_app : forall l l', time (l ++ l') = time l + time l'.
Proof. induction l; simpl; intros; [auto|]. unfold time in *. simpl. rewrite IHl. lia. Qed.

Lemma while_active : forall e pre d0 mid, pre = [] \/ ends inactive pre -> Forall active mid ->
  let t := time (if restarts e pre then tl mid else mid) in
  g_phase (final e (pre ++ (true, d0) :: mid)) = risen e t /\
  g_t (final e (pre ++ (true, d0) :: mid)) = t /\ g_value (final e (pre ++ (true, d0) :: mid)) = rise e t /\
  after e (pre ++ (true, d0) :: mid) =
    mkES (if restarts e pre && match mid with [] => true | _ => false end then PNone else risen e t) None None t true (risen e t) (rise e t).
Proof.
  intros e pre d0 mid Hpre Hmid. pose proof (after_ends_in e Hpre) as Hin. destruct (after_inv e pre) as [HI Ho].
  induction mid as [|[a d] mid IH] using rev_ind.
  - rewrite final_snoc, after_snoc, (@fr_rise _ d0 _ HI Hin). unfold restarts. rewrite Ho.
    destruct (phase_eqb (g_phase (final e pre)) PNone); simpl; auto.
  - apply Forall_app in Hmid as [Hm1 Hm2]. inversion Hm2 as [|x y Ha _ E1]; subst. unfold active in Ha. simpl in Ha. subst a.
    destruct (IH Hm1) as (_ & _ & _ & IHs). clear IH. rewrite app_comm_cons, app_assoc, final_snoc, after_snoc.
    destruct (after_inv e (pre ++ (true, d0) :: mid)) as [HI2 _].
    assert (Hin2 : es_in (after e (pre ++ (true, d0) :: mid)) = true) by (rewrite IHs; reflexivity).
    destruct (@fr_up _ d _ HI2 Hin2) as [Hc _]. rewrite Hc. rewrite IHs in *. cbn [es_phase es_t fst snd g_phase g_t g_value] in *. clear Hc.
    match goal with |- _ = ?x /\ _ => set (R := x) end.
    assert (Ht : (if phase_eqb (if restarts e pre && match mid with [] => true | _ => false end then PNone
                  else risen e (time (if restarts e pre then tl mid else mid))) PNone then 0
                  else time (if restarts e pre then tl mid else mid) + d) =
                 time (if restarts e pre then tl (mid ++ [(true, d)]) else mid ++ [(true, d)])).
    { destruct (restarts e pre); cbn [andb].
      - destruct mid as [|m mid]; [reflexivity|]. cbn [tl app]. rewrite time_app.
        destruct (risen_cases e (time mid)) as [->|[->| ->]]; simpl; lia.
      - rewrite time_app. destruct (risen_cases e (time mid)) as [->|[->| ->]]; simpl; lia. }
    unfold R. rewrite Ht. repeat split; auto. f_equal.
    destruct (restarts e pre); cbn [andb]; auto. destruct mid; reflexivity.
Qed.

(** *** After the deactivation *)
Definition just_restarted (e : envelope) (l : list (bool * nat)) : bool := flagged (g_flags (final e l)) Restart.

Lemma internal_phase : forall e l, es_in (after e l) = true -> es_phase (after e l) = PNone -> just_restarted e l = true.
Proof.
  intros e l. destruct l as [|[a d] l _] using rev_ind; [discriminate|]. rewrite after_in. intros -> .
  unfold just_restarted. rewrite after_snoc, final_snoc. destruct (after_inv e l) as [HI Ho].
  destruct (es_in (after e l)) eqn:Hin.
  - destruct (@fr_up _ d _ HI Hin) as [-> _]. simpl. intros H. match goal with H : risen e ?t = _ |- _ => destruct (risen_cases e t) as [K|[K|K]]; congruence end.
  - rewrite (@fr_rise _ d _ HI Hin). simpl. unfold inv in HI. rewrite Hin in HI.
    destruct HI as [(-> & _)|(-> & _)]; simpl; [destruct (risen_cases e 0) as [K|[K|K]]; congruence|].
    intros _. destruct (risen_cases e 0) as [K|[K|K]]; rewrite K; reflexivity.
Qed.
Lemma internal_phase' : forall e l, es_in (after e l) = true -> just_restarted e l = true -> es_phase (after e l) = PNone.
Proof.
  intros e l. destruct l as [|[a d] l _] using rev_ind; [discriminate|]. rewrite after_in. intros -> .
  unfold just_restarted. rewrite after_snoc, final_snoc. destruct (after_inv e l) as [HI Ho].
  destruct (es_in (after e l)) eqn:Hin.
  - destruct (@fr_up _ d _ HI Hin) as [-> Hm]. simpl. match goal with |- context [risen e ?t] => set (t0 := t) in * end.
    unfold inv in HI. rewrite Hin in HI. destruct HI as (Hc & _).
    destruct (risen_cases e t0) as [K|[K|K]]; rewrite K in *; destruct Hc as [Hc|[Hc|Hc]]; rewrite Hc in *; simpl in Hm; try lia; discriminate.
  - rewrite (@fr_rise _ d _ HI Hin). simpl. unfold inv in HI. rewrite Hin in HI.
    destruct HI as [(-> & _)|(-> & _)]; simpl; auto. destruct (risen_cases e 0) as [K|[K|K]]; rewrite K; discriminate.
Qed.

Lemma while_inactive : forall e pre d0 mid, ends active pre -> Forall inactive mid ->
  let w := (if just_restarted e pre then 0 else d0) + time mid in
  g_phase (final e (pre ++ (false, d0) :: mid)) = (if w <? e_release e then PRelease else PNone) /\
  g_value (final e (pre ++ (false, d0) :: mid)) = (if w <? e_release e then fall e (g_value (final e pre)) w else f_zero) /\
  after e (pre ++ (false, d0) :: mid) =
    (if w <? e_release e then mkES PRelease (Some (es_t (after e pre))) (Some (g_value (final e pre))) (es_t (after e pre) + w) false PRelease
                                   (fall e (g_value (final e pre)) w)
     else mkES PNone None None 0 false PNone f_zero).
Proof.
  intros e pre d0 mid Hpre Hmid. pose proof (after_ends_act e Hpre) as Hin. destruct (after_inv e pre) as [HI Ho].
  induction mid as [|[a d] mid IH] using rev_ind.
  - rewrite final_snoc, after_snoc. destruct (@fr_fall _ d0 _ HI Hin) as [k ->]. cbn [fst snd g_phase g_value time fold_right]. rewrite Nat.add_0_r, <- after_value.
    assert (He : phase_eqb (es_phase (after e pre)) PNone = just_restarted e pre).
    { destruct (just_restarted e pre) eqn:Hj; [rewrite (internal_phase' _ _ Hin Hj); reflexivity|].
      destruct (es_phase (after e pre)) eqn:Hp; auto. rewrite (internal_phase _ _ Hin Hp) in Hj. discriminate. }
    rewrite He. destruct (_ <? _); auto.
  - apply Forall_app in Hmid as [Hm1 Hm2]. inversion Hm2 as [|x y Ha _ E1]; subst. unfold inactive in Ha. simpl in Ha. subst a.
    destruct (IH Hm1) as (_ & _ & IHs). clear IH. rewrite app_comm_cons, app_assoc, final_snoc, after_snoc.
    destruct (after_inv e (pre ++ (false, d0) :: mid)) as [HI2 _].
    set (b := if just_restarted e pre then 0 else d0) in *. cbn zeta in *.
    assert (Hin2 : es_in (after e (pre ++ (false, d0) :: mid)) = false) by (rewrite IHs; destruct (_ <? _); reflexivity).
    pose proof (@fr_down _ d _ HI2 Hin2) as HD. rewrite IHs in HD |- *. rewrite time_app. change (time [(false, d)]) with (d + 0).
    destruct (Nat.ltb_spec (b + time mid) (e_release e)) as [Hw|Hw]; cbn [es_off es_t] in HD.
    + destruct HD as (k & v0 & Hv0 & ->). inversion Hv0; subst v0. cbn [fst snd g_phase g_value].
      replace (es_t (after e pre) + (b + time mid) + d <? es_t (after e pre) + e_release e)
        with (b + (time mid + (d + 0)) <? e_release e).
      2:{ destruct (Nat.ltb_spec (b + (time mid + (d + 0))) (e_release e)); symmetry; [apply Nat.ltb_lt|apply Nat.ltb_ge]; lia. }
      replace (es_t (after e pre) + (b + time mid) + d - es_t (after e pre)) with (b + (time mid + (d + 0))) by lia.
      destruct (_ <? _); auto. repeat split; auto. f_equal. lia.
    + destruct HD as [-> _]. cbn [fst snd g_phase g_value].
      replace (b + (time mid + (d + 0)) <? e_release e) with false by (symmetry; apply Nat.ltb_ge; lia). auto.
Qed.

Lemma never_active : forall e l, Forall inactive l -> g_phase (final e l) = PNone /\ g_value (final e l) = f_zero /\ after e l = es_new.
Proof.
  intros e l. induction l as [|[a d] l IH] using rev_ind; intros H; [repeat split; reflexivity|].
  apply Forall_app in H as [H1 H2]. inversion H2 as [|x y Ha _ E1]; subst. unfold inactive in Ha. simpl in Ha. subst a.
  destruct (IH H1) as (_ & _ & IHs). rewrite final_snoc, after_snoc, IHs. repeat split; reflexivity.
Qed.

(** *** The order of phases, and the flags, frame by frame *)
Lemma in_order : forall e l a d,
  let p := g_phase (final e l) in let p' := g_phase (final e (l ++ [(a, d)])) in
  (a = true -> (p' = PAttack \/ p' = PDecay \/ p' = PSustain) /\ (ends active l -> rank p <= rank p')) /\
  (a = false -> (p' = PRelease \/ p' = PNone) /\ (p = PNone -> p' = PNone)) /\
  g_flags (final e (l ++ [(a, d)])) = phase_transition p p'.
Proof.
  intros e l a d. cbn zeta. rewrite final_snoc. destruct (after_inv e l) as [HI Ho]. rewrite <- Ho.
  split; [|split].
  - intros ->. destruct (es_in (after e l)) eqn:Hin.
    + destruct (@fr_up _ d _ HI Hin) as [-> Hm]. simpl. split; [apply risen_cases|auto].
    + rewrite (@fr_rise _ d _ HI Hin). simpl. split; [apply risen_cases|]. intros Hx. rewrite (after_ends_act e Hx) in Hin. discriminate.
  - intros ->. destruct (es_in (after e l)) eqn:Hin.
    + destruct (@fr_fall _ d _ HI Hin) as [k ->]. simpl. split; [destruct (_ <? _); auto|]. unfold inv in HI. rewrite Hin in HI. destruct HI as ([-> | [-> | ->]] & _); discriminate.
    + pose proof (@fr_down _ d _ HI Hin) as HD. destruct (es_off (after e l)) as [x|] eqn:Hf.
      * destruct HD as (k & v0 & _ & ->). simpl. split; [destruct (_ <? _); auto|]. unfold inv in HI. rewrite Hin in HI. destruct HI as [(_ & _ & Hz & _)|(-> & _)]; [congruence|discriminate].
      * destruct HD as [-> _]. simpl. auto.
  - destruct (@inv_step _ a d _ HI) as (_ & _ & _ & H). exact H.
Qed.

(** Every envelope, also one that changes from frame to frame. *)
Lemma one_flag : forall e a d s,
  g_flags (fst (calculate_output e a d s)) = phase_transition (es_out s) (g_phase (fst (calculate_output e a d s))).
Proof. intros. unfold AdsrModel.calculate_output. destruct (evaluate _ _ _ _ _ _). cbn [fst g_flags g_phase]. destruct (es_in s), a; reflexivity. Qed.

(** *** What is told: the frames of one operator, with the input set before each of them. *)
Fixpoint told_frames (always reset : bool) (s : shared) (es : env_state) (l : list (bool * nat)) : list signal :=
  match l with
  | [] => []
  | (a, d) :: r =>
      let '(o, s', es') := adsr_frame always reset d (mkShared a (sh_none s) (sh_env s)) es in
      match o with Some g => g :: told_frames always reset s' es' r | None => told_frames always reset s' es' r end
  end.
(** Of idle frames only those that follow another one are left out. *)
Fixpoint heard (always : bool) (idle : bool) (gs : list signal) : list signal :=
  match gs with
  | [] => []
  | g :: r => let none := phase_eqb (g_phase g) PNone in
      if negb always && idle && none then heard always none r else g :: heard always none r
  end.
Lemma told_heard : forall always reset env l n es,
  told_frames always reset (mkShared false n env) es l = heard always n (fst (frames env es l)).
Proof.
  assert (R : forall always reset l a b n env es, told_frames always reset (mkShared a n env) es l = told_frames always reset (mkShared b n env) es l)
    by (intros al re [|[a' d] l]; reflexivity).
  intros always reset env l. induction l as [|[a d] l IH]; intros n es; auto.
  cbn [told_frames frames]. unfold AdsrModel.adsr_frame. cbn [sh_env sh_active sh_none]. destruct (calculate_output env a d es) as [g es1].
  specialize (IH (phase_eqb (g_phase g) PNone) es1). rewrite (R _ _ _ (if reset then false else a) false), IH.
  destruct (frames env es1 l) as [gs es2]. cbn [fst heard]. destruct always, n, (phase_eqb (g_phase g) PNone); reflexivity.
Qed.
End Envelope.
