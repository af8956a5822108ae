(** The ADSR envelope and the operator around it. No proofs in this file. Durations are in
    nanoseconds. Not modelled: the field [activation_time_absolute], which nothing reads; overflow
    of durations. Easings are numbers, [linear] and others; what the easing curves of bevy_math are is
    left open ([sample]). *)
From Coq Require Import NArith.
From Verif Require Import Base SubscrModel SchedModel TimeModel FloatModel.
Set Implicit Arguments.

(** crates/rx_core_operator_adsr/src/model/adsr_envelope_phase.rs:7-24 *)
Inductive phase : Type := PNone | PAttack | PDecay | PSustain | PRelease.
Definition phase_eqb (a b : phase) : bool :=
  match a, b with
  | PNone, PNone | PAttack, PAttack | PDecay, PDecay | PSustain, PSustain | PRelease, PRelease => true
  | _, _ => false
  end.

(** model/adsr_envelope_phase_transition.rs:12-31; sets of flags are bits. *)
Definition Start : N := 1.
Definition Fire : N := 2.
Definition Sustain : N := 4.
Definition Release : N := 8.
Definition Stop : N := 16.
Definition Restart : N := 32.
Definition flagged (s f : N) : bool := N.eqb (N.land s f) f.           (* [contains] *)

Definition on_enter (p : phase) : N :=                                (* :34-42 *)
  match p with
  | PAttack => Start
  | PDecay => Fire
  | PSustain => Sustain
  | PRelease => Release
  | PNone => Stop
  end.
Definition skippable (p : phase) : bool := phase_eqb p PSustain.      (* :53-55 *)

(** The loop of :71-93 over the phases that are left. *)
Fixpoint scan (from to : phase) (met : bool) (acc : N) (l : list phase) : N :=
  match l with
  | [] => acc
  | p :: r =>
      if skippable p && negb (phase_eqb to p) then scan from to (met || phase_eqb p from) acc r
      else
        let acc1 := if met then N.lor acc (on_enter p) else acc in
        let acc2 := if negb met && phase_eqb p to && negb (phase_eqb to PNone)
                    then N.lor acc1 (N.lor Stop Restart) else acc1 in
        if phase_eqb p to then acc2 else scan from to (met || phase_eqb p from) acc2 r
  end.
Definition phase_transition (from to : phase) : N :=                  (* :57-101 *)
  if phase_eqb from to then 0%N else
  scan from to false (if phase_eqb to PNone then Stop else 0%N) [PNone; PAttack; PDecay; PSustain; PRelease].

(** bevy_math: EaseFunction, and [EasingCurve::new(from, to, f).sample_clamped(pos)] as
    [sample f from to pos]. *)
Definition easing : Type := nat.
Definition linear : easing := 0.
Definition curve : Type := easing -> f32 -> f32 -> f32 -> f32.

(** adsr/adsr_envelope.rs:10-31 *)
Record envelope : Type := mkEnv {
  e_attack : nat; e_attack_easing : option easing;
  e_decay : nat; e_decay_easing : option easing; e_sustain : f32;
  e_release : nat; e_release_easing : option easing
}.

Definition current_phase (e : envelope) (active : bool) (t : nat) (off : option nat) : phase * nat * nat :=   (* :84-133 *)
  match active, off with
  | false, None => (PNone, 0, 0)
  | true, None =>
      if t <? e_attack e then (PAttack, 0, e_attack e)
      else if t <? e_attack e + e_decay e then (PDecay, e_attack e, e_attack e + e_decay e)
      else (PSustain, e_attack e + e_decay e, e_attack e + e_decay e)
  | _, Some d => if t <? d + e_release e then (PRelease, d, d + e_release e) else (PNone, 0, 0)
  end.

(** How far into the phase, :50-53, :61-64, :73-76. *)
Definition position (t start stop : nat) : f32 := clamp01 (f_div (secs (t - start)) (f_max (secs (stop - start)) f_epsilon)).
Definition or_linear (o : option easing) : easing := match o with Some f => f | None => linear end.

Definition evaluate (sample : curve) (e : envelope) (active : bool) (t : nat) (off_value : option f32) (off : option nat)   (* :33-82 *)
    : f32 * phase :=
  let '(p, start, stop) := current_phase e active t off in
  let sustain := clamp01 (e_sustain e) in
  let value :=
    match p with
    | PAttack => sample (or_linear (e_attack_easing e)) f_zero f_one (position t start stop)
    | PDecay => sample (or_linear (e_decay_easing e)) f_one sustain (position t start stop)
    | PSustain => sustain
    | PRelease => sample (or_linear (e_release_easing e)) (match off_value with Some v => v | None => sustain end) f_zero (position t start stop)
    | PNone => f_zero
    end in
  (clamp01 value, p).

(** adsr/adsr_envelope_state.rs:13-22 *)
Record env_state : Type := mkES {
  es_phase : phase;              (* adsr_envelope_phase *)
  es_off : option nat;           (* deactivation_time_relative *)
  es_off_value : option f32;     (* deactivation_value *)
  es_t : nat;                    (* elapsed *)
  es_in : bool;                  (* last_frame_input_signal *)
  es_out : phase;                (* last_frame_output_signal.adsr_envelope_phase *)
  es_value : f32                 (* last_frame_output_signal.value *)
}.
Definition es_new : env_state := mkES PNone None None 0 false PNone f_zero.
Definition es_reset (s : env_state) : env_state := mkES PNone None None 0 (es_in s) (es_out s) (es_value s).   (* :25-31 *)

(** model/adsr_signal.rs:4-11. *)
Record signal : Type := mkSig { g_phase : phase; g_flags : N; g_t : nat; g_value : f32 }.

Definition calculate_output (sample : curve) (e : envelope) (active : bool) (delta : nat) (s : env_state)   (* :35-85 *)
    : signal * env_state :=
  let s1 := if negb (es_in s) && active then es_reset s
            else if es_in s && negb active
            then mkES (es_phase s) (Some (es_t s)) (Some (es_value s)) (es_t s) (es_in s) (es_out s) (es_value s)
            else s in
  let t := if phase_eqb (es_phase s1) PNone then es_t s1 else es_t s1 + delta in
  let '(v, p) := evaluate sample e active t (es_off_value s1) (es_off s1) in
  let fl := phase_transition (es_out s1) p in
  let s2 := mkES p (es_off s1) (es_off_value s1) t (es_in s1) (es_out s1) (es_value s1) in
  let s3 := if flagged fl Stop then es_reset s2 else s2 in
  (mkSig p fl (es_t s3) v, mkES (es_phase s3) (es_off s3) (es_off_value s3) (es_t s3) active p v).

(** One frame after the other: is it activated, how much time has passed. *)
Fixpoint frames (sample : curve) (e : envelope) (s : env_state) (l : list (bool * nat)) : list signal * env_state :=
  match l with
  | [] => ([], s)
  | (a, d) :: r =>
      let '(g, s1) := calculate_output sample e a d s in
      let '(gs, s2) := frames sample e s1 r in (g :: gs, s2)
  end.

(** *** The operator, adsr_subscriber.rs. A trigger is the activation and the changes to the
    envelope (adsr_trigger.rs:6-9, apply_change of adsr_envelope.rs:135-163). *)
Record env_change : Type := mkChange {
  c_attack : option nat; c_attack_easing : option easing;
  c_decay : option nat; c_decay_easing : option easing; c_sustain : option f32;
  c_release : option nat; c_release_easing : option easing
}.
Definition or_else {Y} (o : option Y) (n : Y) : Y := match o with Some m => m | None => n end.
Definition or_keep {Y} (o o' : option Y) : option Y := match o with Some m => Some m | None => o' end.
Definition apply_env_change (c : env_change) (e : envelope) : envelope :=
  mkEnv (or_else (c_attack c) (e_attack e)) (or_keep (c_attack_easing c) (e_attack_easing e))
        (or_else (c_decay c) (e_decay e)) (or_keep (c_decay_easing c) (e_decay_easing e)) (or_else (c_sustain c) (e_sustain e))
        (or_else (c_release c) (e_release e)) (or_keep (c_release_easing c) (e_release_easing e)).
Definition trigger : Type := (bool * option env_change)%type.

(** :16-23; the closure has [last_now] and the envelope state. *)
Record shared : Type := mkShared { sh_active : bool; sh_none : bool; sh_env : envelope }.

Definition adsr_next (t : trigger) (s : shared) : shared :=           (* :137-144 *)
  mkShared (fst t) (sh_none s) (match snd t with Some c => apply_env_change c (sh_env s) | None => sh_env s end).

(** The closure's work under the lock, :77-110: the output, if it is to be told. *)
Definition adsr_frame (sample : curve) (always reset : bool) (delta : nat) (s : shared) (es : env_state)
    : option signal * shared * env_state :=
  let '(g, es') := calculate_output sample (sh_env s) (sh_active s) delta es in
  let none := phase_eqb (g_phase g) PNone in
  (if always || negb none || negb (sh_none s) then Some g else None,
   mkShared (if reset then false else sh_active s) none (sh_env s), es').

Definition adsr {E X} (sample : curve) (always reset : bool) (env : envelope)
    : timed trigger signal E shared (nat * env_state) X :=
  {| t_torn := false;
     t_new := mkShared false false env;                               (* :56-60 *)
     t_sub := fun _ w => ask (QSched 0 KContinuous (KO (0, es_new))) w;   (* :65-120 *)
     t_up := fun tell c w =>
       match c with
       | Nxt t => st (adsr_next t (w_st w)) w
       | Err e => tell (Err e) w                                      (* :147-149 *)
       | Cmp => tell Cmp w                                            (* :152-154 *)
       | Uns => tell Uns (ask (QCancel 0) w)                          (* :170-173 *)
       end;
     t_run := fun tell '(last, es) now w =>                           (* :69-119 *)
       if w_shut w then ((last, es), true, w)
       else if now <? last then ((last, es), true, set_panic w)       (* :80, subtraction of durations *)
       else
         let '(o, s', es') := adsr_frame sample always reset (now - last) (w_st w) es in
         let w1 := st s' w in
         let w2 := match o with Some g => tell (Nxt g) w1 | None => w1 end in
         ((now, es'), w_shut w2, w2) |}.
