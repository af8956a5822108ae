(** The values of the ADSR envelope: range, start, and when they are numbers. *)
From Coq Require Import NArith ZArith SpecFloat.
From Verif Require Import Base FloatModel FloatFacts AdsrModel AdsrProofs.
Set Implicit Arguments.

(** Any envelope, any state. *)
Lemma value_clamped : forall sample e a d s, exists x, g_value (fst (calculate_output sample e a d s)) = clamp01 x.
Proof.
  intros. unfold calculate_output. destruct (evaluate _ _ _ _ _ _) as [v p] eqn:E. cbn [fst g_value].
  unfold evaluate in E. destruct (current_phase _ _ _ _) as [[q x] y]. inversion E; subst. eexists; reflexivity.
Qed.
Lemma value_range : forall sample e a d s,
  let v := g_value (fst (calculate_output sample e a d s)) in v = S754_nan \/ within v.
Proof. intros sample e a d s. cbn zeta. destruct (value_clamped sample e a d s) as [x ->]. apply clamp_either. Qed.
Lemma value_none : forall sample e a d s,
  g_phase (fst (calculate_output sample e a d s)) = PNone -> g_value (fst (calculate_output sample e a d s)) = f_zero.
Proof.
  intros sample e a d s. unfold calculate_output. destruct (evaluate _ _ _ _ _ _) as [v p] eqn:E. cbn [fst g_value g_phase].
  unfold evaluate in E. destruct (current_phase _ _ _ _) as [[q x] y]. inversion E; subst. intros ->. reflexivity.
Qed.

Lemma share_start : forall len, share 0 len = f_zero.
Proof.
  intros. unfold share. change (secs 0) with f_zero. pose proof (divisor_positive (secs len)) as H.
  destruct (f_max (secs len) f_epsilon) as [[]|[]| |[] m e]; try discriminate; reflexivity.
Qed.
Lemma share_range : forall t len, ~ infinite (secs len) -> within (share t len).
Proof.
  intros t len H. unfold share. apply clamp_range, pos_number. destruct (@max_pos (secs len) (secs_pos len)) as [H1 H2].
  apply div_pos; auto; [apply secs_pos|apply divisor_positive|tauto].
Qed.

(** An envelope that changes from frame to frame. *)
Fixpoint varying (sample : curve) (s : env_state) (l : list (envelope * bool * nat)) : list signal :=
  match l with
  | [] => []
  | (e, a, d) :: r => let '(g, s1) := calculate_output sample e a d s in g :: varying sample s1 r
  end.
(** Curves between two values in range are numbers. *)
Definition numeric (sample : curve) : Prop :=
  forall f from to pos, within from -> within to -> within pos -> is_nan (sample f from to pos) = false.
Definition sane (e : envelope) : Prop :=
  is_nan (e_sustain e) = false /\ ~ infinite (secs (e_attack e)) /\ ~ infinite (secs (e_decay e)) /\ ~ infinite (secs (e_release e)).
Definition sound (s : env_state) : Prop :=
  within (es_value s) /\ match es_off_value s with Some v => within v | None => True end.

Lemma within_zero : within f_zero. Proof. split; reflexivity. Qed.
Lemma within_one : within f_one. Proof. split; reflexivity. Qed.

Lemma evaluate_range : forall sample e a t ov off, numeric sample -> sane e ->
  match ov with Some v => within v | None => True end -> within (fst (evaluate sample e a t ov off)).
Proof.
  intros sample e a t ov off Hn (Hs & Ha & Hd & Hr) Hv. unfold evaluate.
  destruct (current_phase e a t off) as [[p x] y] eqn:E. cbn [fst].
  assert (Hc : within (clamp01 (e_sustain e))) by now apply clamp_range.
  apply clamp_range. unfold current_phase in E.
  assert (Hpos : p = PAttack \/ p = PDecay \/ p = PRelease -> within (position t x y)).
  { intros Hp. change (within (share (t - x) (y - x))). apply share_range.
    destruct a, off as [o|]; repeat (destruct (_ <? _) in E; [inversion E; subst|]); try (inversion E; subst); try (exfalso; destruct Hp as [|[|]]; discriminate);
    rewrite ?Nat.sub_0_r, ?Nat.add_sub; auto; match goal with |- context [?u + ?w - ?u] => replace (u + w - u) with w by lia end; auto. }
  destruct p; try reflexivity; try (apply Hn; auto using within_zero, within_one).
  - rewrite clamp_nan. exact Hs.
  - destruct ov; auto.
Qed.

Lemma numbers : forall sample, numeric sample -> forall l s, sound s -> Forall (fun f => sane (fst (fst f))) l ->
  Forall (fun g => within (g_value g)) (varying sample s l).
Proof.
  intros sample Hn l. induction l as [|[[e a] d] l IH]; intros s Hs Hl; [constructor|].
  inversion Hl as [|? ? He Hl']; subst. cbn [fst] in He. cbn [varying].
  destruct (calculate_output sample e a d s) as [g s1] eqn:E.
  assert (K : within (g_value g) /\ sound s1).
  { unfold calculate_output in E. set (s0 := if negb (es_in s) && a then _ else _) in E.
    assert (H0 : sound s0). { unfold s0. destruct Hs as [H1 H2]. destruct (negb _ && _); [split; [exact H1|exact I]|]. destruct (_ && _); split; auto. }
    clearbody s0. destruct H0 as [H1 H2].
    match type of E with context [evaluate sample e a ?t ?ov ?off] => pose proof (@evaluate_range sample e a t ov off Hn He H2) as Hv; destruct (evaluate sample e a t ov off) as [v p] end.
    cbn [fst] in Hv. inversion E; subst. split; [exact Hv|]. split; [exact Hv|]. cbn [es_off_value]. destruct (flagged _ _); cbn; auto. }
  destruct K as [K1 K2]. constructor; auto.
Qed.
Lemma numbers_new : forall sample, numeric sample -> forall l, Forall (fun f => sane (fst (fst f))) l ->
  Forall (fun g => within (g_value g)) (varying sample es_new l).
Proof. intros sample H l Hl. apply numbers; auto. split; [exact within_zero|exact I]. Qed.

(** The three phases of an activation, one by one. *)
Lemma rise_attack : forall sample e t, t < e_attack e ->
  rise sample e t = clamp01 (sample (or_linear (e_attack_easing e)) f_zero f_one (share t (e_attack e))).
Proof. intros. unfold rise. replace (t <? e_attack e) with true by (symmetry; now apply Nat.ltb_lt). reflexivity. Qed.
Lemma rise_decay : forall sample e t, e_attack e <= t < e_attack e + e_decay e ->
  rise sample e t = clamp01 (sample (or_linear (e_decay_easing e)) f_one (clamp01 (e_sustain e)) (share (t - e_attack e) (e_decay e))).
Proof.
  intros. unfold rise. replace (t <? e_attack e) with false by (symmetry; apply Nat.ltb_ge; lia).
  replace (t <? e_attack e + e_decay e) with true by (symmetry; apply Nat.ltb_lt; lia). reflexivity.
Qed.
Lemma rise_sustain : forall sample e t, e_attack e + e_decay e <= t -> rise sample e t = clamp01 (e_sustain e).
Proof.
  intros. unfold rise. replace (t <? e_attack e) with false by (symmetry; apply Nat.ltb_ge; lia).
  replace (t <? e_attack e + e_decay e) with false by (symmetry; apply Nat.ltb_ge; lia). apply clamp_idem.
Qed.

Lemma active_value : forall sample e pre d0 mid, pre = [] \/ ends inactive pre -> Forall active mid ->
  let t := time (if restarts sample e pre then tl mid else mid) in
  let v := g_value (final sample e (pre ++ (true, d0) :: mid)) in
  (t < e_attack e -> v = clamp01 (sample (or_linear (e_attack_easing e)) f_zero f_one (share t (e_attack e)))) /\
  (e_attack e <= t < e_attack e + e_decay e ->
     v = clamp01 (sample (or_linear (e_decay_easing e)) f_one (clamp01 (e_sustain e)) (share (t - e_attack e) (e_decay e)))) /\
  (e_attack e + e_decay e <= t -> v = clamp01 (e_sustain e)).
Proof.
  intros sample e pre d0 mid Hp Hm. cbn zeta. destruct (@while_active sample e pre d0 mid Hp Hm) as (_ & _ & -> & _).
  repeat split; intros; auto using rise_attack, rise_decay, rise_sustain.
Qed.
Lemma released_value : forall sample e pre d0 mid, ends active pre -> Forall inactive mid ->
  let t := (if just_restarted sample e pre then 0 else d0) + time mid in
  let v := g_value (final sample e (pre ++ (false, d0) :: mid)) in
  (t < e_release e ->
     v = clamp01 (sample (or_linear (e_release_easing e)) (g_value (final sample e pre)) f_zero (share t (e_release e)))) /\
  (e_release e <= t -> v = f_zero).
Proof.
  intros sample e pre d0 mid Hp Hm. cbn zeta. destruct (@while_inactive sample e pre d0 mid Hp Hm) as (_ & -> & _).
  destruct (Nat.ltb_spec ((if just_restarted sample e pre then 0 else d0) + time mid) (e_release e)); split; intros; try lia; reflexivity.
Qed.
