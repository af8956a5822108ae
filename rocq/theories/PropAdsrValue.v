(** Property C64: the values of the ADSR envelope, in f32. [final sample e l] is what comes out in the
    last of the frames [l] (see PropAdsr.v); [sample f from to pos] is the easing curve [f] of
    bevy_math, about which nothing is assumed unless it is said. *)
From Coq Require Import NArith ZArith SpecFloat.
From Verif Require Import Base FloatModel FloatFacts AdsrModel AdsrProofs AdsrValue PropAdsr.
Set Implicit Arguments.

(** While it is active, [t] after the activation: the attack curve from 0 to 1, then the decay curve from
    1 to the sustain volume, then the sustain volume. [t] is the time of C46_active_partial. *)
Theorem C64_active : forall sample e pre d0 mid, pre = [] \/ ends inactive pre -> Forall active mid ->
  let t := time (if restarts sample e pre then tl mid else mid) in
  let v := g_value (final sample e (pre ++ (true, d0) :: mid)) in
  (t < e_attack e -> v = clamp01 (sample (match e_attack_easing e with Some f => f | None => linear end) f_zero f_one (share t (e_attack e)))) /\
  (e_attack e <= t < e_attack e + e_decay e ->
     v = clamp01 (sample (match e_decay_easing e with Some f => f | None => linear end) f_one (clamp01 (e_sustain e)) (share (t - e_attack e) (e_decay e)))) /\
  (e_attack e + e_decay e <= t -> v = clamp01 (e_sustain e)).
Proof. exact active_value. Qed.
Print Assumptions C64_active.

(** After the deactivation: the release curve from the value of the last active frame to 0, also if that
    frame was in attack or decay; then 0. *)
Theorem C64_release : forall sample e pre d0 mid, ends active pre -> Forall inactive mid ->
  let t := (if just_restarted sample e pre then 0 else d0) + time mid in
  let v := g_value (final sample e (pre ++ (false, d0) :: mid)) in
  (t < e_release e ->
     v = clamp01 (sample (match e_release_easing e with Some f => f | None => linear end) (g_value (final sample e pre)) f_zero (share t (e_release e)))) /\
  (e_release e <= t -> v = f_zero).
Proof. exact released_value. Qed.
Print Assumptions C64_release.

Theorem C64_none : forall sample e a d s,
  g_phase (fst (calculate_output sample e a d s)) = PNone -> g_value (fst (calculate_output sample e a d s)) = f_zero.
Proof. exact value_none. Qed.
Print Assumptions C64_none.

(** The curves are sampled at 0 in the frame of the activation, whatever the length, and the length is
    never divided by 0. *)
Theorem C64_start : forall len, share 0 len = f_zero /\ SFltb f_zero (f_max (secs len) f_epsilon) = true.
Proof. exact (fun len => conj (share_start len) (divisor_positive (secs len))). Qed.
Print Assumptions C64_start.

(** Times in seconds: the number of whole seconds plus the share of a second. *)
Theorem C64_seconds : forall k n, (n < billion)%N ->
  secs_of (k * billion) = f_of k /\ secs_of (k * billion + n) = f_add (f_of k) (f_div (f_of n) (f_of billion)).
Proof. exact (fun k n H => conj (whole_secs k) (split_secs k H)). Qed.
Print Assumptions C64_seconds.
Example C64_seconds_example : secs_of 1500000000 = f_add f_one (f_div f_one (f_add f_one f_one)) /\
  secs_of 2000000000 = f_add f_one f_one.
Proof. vm_compute. auto. Qed.

(** For all curves and envelopes, also changing ones, a value is NaN or between 0 and 1. *)
Theorem C64_range : forall sample e a d s,
  let v := g_value (fst (calculate_output sample e a d s)) in v = S754_nan \/ within v.
Proof. exact value_range. Qed.
Print Assumptions C64_range.

(** They are all between 0 and 1 if the curves give numbers, no sustain volume is NaN, and the
    lengths are no longer than f32 can hold, also if the envelope changes from frame to frame. *)
Theorem C64_numbers : forall sample, numeric sample -> forall l, Forall (fun f => sane (fst (fst f))) l ->
  Forall (fun g => within (g_value g)) (varying sample es_new l).
Proof. exact numbers_new. Qed.
Print Assumptions C64_numbers.
(** The longest Duration is not too long. *)
Example C64_longest : ~ infinite (secs_of (2 ^ 64 * billion - 1)).
Proof. vm_compute. auto. Qed.

(** With a NaN for the sustain volume the value is NaN, though it is clamped twice. *)
Example C64_nan : exists e l, g_value (final straight e l) = S754_nan.
Proof. exists (mkEnv 2 None 2 None S754_nan 3 None), [(true, 1); (true, 4)]. vm_compute. reflexivity. Qed.

(** Straight lines, in nanoseconds: too short for the epsilon in the divisor, so the attack never
    gets far. *)
Definition half : f32 := f_div f_one (f_add f_one f_one).
Definition values (e : envelope) (l : list (bool * nat)) : list f32 := map g_value (signals straight e l).
Example C64_short : exists e t, t < e_attack e /\ e_attack e <= 2 * t /\
  SFltb (g_value (final straight e [(true, 0); (true, t)])) (f_mul half (f_mul half half)) = true.
Proof. exists (env3 4 1 1), 3. vm_compute. repeat split; auto. Qed.

Example C64_example :
  map (fun x => (is_nan x, SFeqb x f_zero, SFeqb x half, SFeqb x f_one))
    (values (env3 2000 2000 3000) [(false, 1); (true, 1); (true, 1000); (true, 1000); (true, 2000); (false, 0); (false, 3000)]) =
  [(false, true, false, false); (false, true, false, false); (false, false, true, false); (false, false, false, true);
   (false, false, true, false); (false, false, true, false); (false, true, false, false)].
Proof. vm_compute. reflexivity. Qed.
(** There are such curves and envelopes. *)
Example C64_numbers_example : numeric (fun _ from to pos => if SFltb pos half then from else to) /\ sane (env3 2000 2000 3000).
Proof.
  split; [|vm_compute; repeat split; auto].
  intros f [s|s| |s m e] [s'|s'| |s' m' e'] pos [H1 H2] [H3 H4] _; destruct (SFltb pos half); try reflexivity; discriminate.
Qed.
