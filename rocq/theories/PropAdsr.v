(** Property C46: the ADSR envelope. [final sample e l] is what comes out in the last of the frames
    [l]; a frame is whether it is being activated and the time that passed since the frame
    before. The curves ([sample]) are arbitrary; C64 has the values. *)
From Coq Require Import NArith.
From Verif Require Import Base SubscrModel SchedModel TimeModel TimeSpec FloatModel AdsrModel AdsrProofs AdsrSpec AdsrTime AdsrAny.
Set Implicit Arguments.

(** For the examples: an envelope with straight lines, sustaining at 1/2. *)
Definition straight : curve := fun _ from to pos => f_add (f_mul from (f_sub f_one pos)) (f_mul to pos).
Definition env3 (a d r : nat) : envelope := mkEnv a None d None (f_div f_one (f_add f_one f_one)) r None.

(** While it is active the phase is given by the time since the frame in which it was
    activated: attack until [e_attack], then decay for [e_decay], then sustain. Partial: after
    an activation in the release phase ([restarts]) the first delta is not counted. *)
Theorem C46_active_partial : forall sample e pre d0 mid, pre = [] \/ ends inactive pre -> Forall active mid ->
  let t := time (if restarts sample e pre then tl mid else mid) in
  g_phase (final sample e (pre ++ (true, d0) :: mid)) =
    (if t <? e_attack e then PAttack else if t <? e_attack e + e_decay e then PDecay else PSustain) /\
  g_t (final sample e (pre ++ (true, d0) :: mid)) = t.
Proof. exact (fun sample e pre d0 mid Hp Hm => match @while_active sample e pre d0 mid Hp Hm with conj a (conj b _) => conj a b end). Qed.
Print Assumptions C46_active_partial.

(** After the deactivation it is in release until [e_release] has passed since the last active
    frame, then in none. Partial: if that last frame was a restart, the first delta is not
    counted. *)
Theorem C46_release_partial : forall sample e pre d0 mid, ends active pre -> Forall inactive mid ->
  let t := (if just_restarted sample e pre then 0 else d0) + time mid in
  g_phase (final sample e (pre ++ (false, d0) :: mid)) = (if t <? e_release e then PRelease else PNone).
Proof. exact (fun sample e pre d0 mid Hp Hm => proj1 (@while_inactive sample e pre d0 mid Hp Hm)). Qed.
Print Assumptions C46_release_partial.

Theorem C46_idle : forall sample e l, Forall inactive l -> g_phase (final sample e l) = PNone.
Proof. exact (fun sample e l H => proj1 (@never_active sample e l H)). Qed.
Print Assumptions C46_idle.

(** The order: active frames are in attack, decay or sustain, and only go forward while it
    stays active; the others are in release or none, and none stays none. The flags are the
    transition from the phase of the frame before. *)
Theorem C46_order : forall sample e l a d,
  let p := g_phase (final sample e l) in let p' := g_phase (final sample e (l ++ [(a, d)])) in
  (a = true -> (p' = PAttack \/ p' = PDecay \/ p' = PSustain) /\ (ends active l -> rank p <= rank p')) /\
  (a = false -> (p' = PRelease \/ p' = PNone) /\ (p = PNone -> p' = PNone)) /\
  g_flags (final sample e (l ++ [(a, d)])) = phase_transition p p'.
Proof. exact in_order. Qed.
Print Assumptions C46_order.

(** Also for an envelope that is changed while running. *)
Theorem C46_flags_any_envelope : forall sample e a d s,
  g_flags (fst (calculate_output sample e a d s)) = phase_transition (es_out s) (g_phase (fst (calculate_output sample e a d s))).
Proof. exact one_flag. Qed.
Print Assumptions C46_flags_any_envelope.

(** The flags of a transition. Going forward: the entered phase and the ones between, without
    sustain unless it is the entered one. To none: stop. Back to another phase: stop and
    restart. *)
Theorem C46_transitions_partial : forall from to,
  (from = to -> phase_transition from to = 0%N) /\
  (from <> PNone -> to = PNone -> phase_transition from to = Stop) /\
  (to <> PNone -> rank to < rank from -> phase_transition from to = N.lor Stop Restart) /\
  (rank from < rank to ->
   flagged (phase_transition from to) Stop = false /\ flagged (phase_transition from to) Restart = false /\
   forall p, p <> PNone ->
   (flagged (phase_transition from to) (on_enter p) = true <->
    rank from < rank p <= rank to /\ (p = PSustain -> to = PSustain))).
Proof. exact flags_named. Qed.
Print Assumptions C46_transitions_partial.

Example C46_example :
  map (fun g => (g_phase g, g_flags g, g_t g))
      (signals straight (env3 2 2 3) [(false, 1); (true, 1); (true, 1); (true, 1); (true, 3); (false, 1); (false, 1); (false, 1); (false, 1)]) =
  [(PNone, 0%N, 0); (PAttack, Start, 0); (PAttack, 0%N, 1); (PDecay, Fire, 2); (PSustain, Sustain, 5);
   (PRelease, Release, 6); (PRelease, 0%N, 7); (PNone, Stop, 0); (PNone, 0%N, 0)].
Proof. vm_compute. reflexivity. Qed.

(** The triggers before a frame: the last one says whether it is active, and of each parameter of the
    envelope the last change counts; what no trigger changed stays. *)
Theorem C46_triggers : forall ts e none,
  let s := fold_left (fun s t => adsr_next t s) ts (mkShared false none e) in
  sh_active s = last (map fst ts) false /\ sh_none s = none /\
  e_attack (sh_env s) = changed c_attack ts (e_attack e) /\
  e_attack_easing (sh_env s) = changed (given c_attack_easing) ts (e_attack_easing e) /\
  e_decay (sh_env s) = changed c_decay ts (e_decay e) /\
  e_decay_easing (sh_env s) = changed (given c_decay_easing) ts (e_decay_easing e) /\
  e_sustain (sh_env s) = changed c_sustain ts (e_sustain e) /\
  e_release (sh_env s) = changed c_release ts (e_release e) /\
  e_release_easing (sh_env s) = changed (given c_release_easing) ts (e_release_easing e).
Proof. exact triggers_change. Qed.
Print Assumptions C46_triggers.
Example C46_triggers_example :
  let no := mkChange None None None None None None None in
  let s := fold_left (fun s t => adsr_next t s)
             [(true, Some (mkChange (Some 3) None None None None (Some 8) None)); (true, None);
              (false, Some (mkChange (Some 5) None None None None None None)); (true, Some no)] (mkShared false false (env3 1 2 4)) in
  (sh_active s, e_attack (sh_env s), e_decay (sh_env s), e_release (sh_env s)) = (true, 5, 2, 8).
Proof. vm_compute. reflexivity. Qed.

(** What is told of these frames ([told_frames] sets the input before each frame): all of them, or
    all but the idle frames that follow another idle frame. So also the first frame, and the one
    in which it stops. *)
Theorem C46_told : forall sample always reset e l,
  told_frames sample always reset (mkShared false false e) es_new l = heard always false (signals sample e l).
Proof. exact (fun sample always reset e l => told_heard sample always reset e l false es_new). Qed.
Print Assumptions C46_told.
Example C46_told_example :
  map g_phase (told_frames straight false true (mkShared false false (env3 2 2 3)) es_new
    [(false, 1); (false, 1); (true, 1); (false, 1); (false, 3); (false, 1)]) = [PNone; PAttack; PRelease; PNone].
Proof. vm_compute. reflexivity. Qed.

(** An activation during the release loses one delta: it is active for longer than the attack
    time and still in the attack phase. *)
Theorem C46_restart_refuted : exists sample e pre d0 mid, (pre = [] \/ ends inactive pre) /\ Forall active mid /\
  e_attack e < time mid /\ g_phase (final sample e (pre ++ (true, d0) :: mid)) = PAttack.
Proof.
  exists straight, (env3 5 1 9), [(true, 0); (false, 1)], 1, [(true, 4); (true, 4)]. split; [|split; [repeat constructor|]].
  - right. exists [(true, 0)], (false, 1). split; reflexivity.
  - vm_compute. auto.
Qed.
Print Assumptions C46_restart_refuted.

(** Released during the attack, it is reported to have fired, though it was not active for the
    attack time and never was in decay or sustain. *)
Theorem C46_fire_refuted : exists sample e l, time l < e_attack e /\
  (forall g, In g (signals sample e l) -> g_phase g <> PDecay /\ g_phase g <> PSustain) /\
  flagged (g_flags (final sample e l)) Fire = true.
Proof.
  exists straight, (env3 9 1 9), [(true, 0); (true, 2); (false, 2)]. split; [|split].
  - vm_compute. auto.
  - vm_compute. intros g [<-|[<-|[<-|[]]]]; split; discriminate.
  - vm_compute. auto.
Qed.
Print Assumptions C46_fire_refuted.

(** And a restart in the attack phase is not reported as a start. *)
Theorem C46_start_refuted : exists sample e l a d,
  g_phase (final sample e l) <> PAttack /\ g_phase (final sample e (l ++ [(a, d)])) = PAttack /\
  flagged (g_flags (final sample e (l ++ [(a, d)]))) Start = false.
Proof. exists straight, (env3 5 1 9), [(true, 0); (false, 1)], true, 1. vm_compute. repeat split; auto; discriminate. Qed.
Print Assumptions C46_start_refuted.

(** *** The operator on the scheduler (see PropTime.v for the setting), where the other tasks, the
    source and the destination may do anything at any time, also push triggers during a tick. What
    happened can be marked with frames such that: there is one in each tick, with the latest
    trigger as of then and the time since the frame before, starting with the subscription
    ([seen], [timely]); what the options let through of it comes out in it, and nothing else
    does ([prompt]); terminals are forwarded at once. While the time does not go backwards
    there is no panic. *)
Theorem C46_operator : forall E X sample always_none reset env (down : list (ncall signal E) -> bool * list (req X))
    (user : X -> nat -> list (tev trigger signal E) -> X * bool * list (cmd trigger E X)) fuel depth h s,
  syss (adsr sample always_none reset env) down user fuel (start (adsr sample always_none reset env) depth) h = Fine s ->
  let tr := w_tr (m_world s) in
  (exists m, unmark m = tr /\
     (forall p x q, m = p ++ x :: q -> timely down sample always_none reset env p x) /\
     prompt sample always_none reset env m) /\
  always (forwarded down) tr /\ answered down (@terminals trigger signal E) tr /\
  (steady tr -> w_panic (m_world s) = false).
Proof. exact @adsr_any. Qed.
Print Assumptions C46_operator.

(** If the other tasks push no triggers (between ticks anything may happen) the frame can as well
    be taken at the end of the tick: what comes out in it is given by what happened before. *)
Theorem C46_operator_quiet : forall E X sample always_none reset env (down : list (ncall signal E) -> bool * list (req X))
    (user : X -> nat -> list (tev trigger signal E) -> X * bool * list (cmd trigger E X)),
  quiet user -> forall fuel depth h m,
  syss (adsr sample always_none reset env) down user fuel (start (adsr sample always_none reset env) depth) h = Fine m ->
  let tr := w_tr (m_world m) in
  always (enveloped down sample always_none reset env) tr /\ answered down (@terminals trigger signal E) tr /\
  (steady tr -> w_panic (m_world m) = false).
Proof. exact @adsr_ok. Qed.
Print Assumptions C46_operator_quiet.

(** Ticking to an earlier time makes it panic (adsr_subscriber.rs:80). *)
Definition adsr_run (h : list (sact trigger nat nat)) : option (bool * list (ncall signal nat)) :=
  match syss (adsr straight false false (env3 2 2 3)) (fun _ => (false, [])) (fun x _ _ => (x, true, [])) 100
          (start (adsr (E:=nat) (X:=nat) straight false false (env3 2 2 3)) 10) h with
  | Fine m => Some (w_panic (m_world m), outs (w_tr (m_world m)))
  | _ => None
  end.
Theorem C46_time_goes_back_refuted : exists h os, adsr_run h = Some (true, os).
Proof. exists [SDo [CSub]; STickTo 5; STickTo 3]. eexists. vm_compute. reflexivity. Qed.
Print Assumptions C46_time_goes_back_refuted.

Example C46_operator_example :
  option_map (fun r => (fst r, map (fun c => match c with Nxt g => Some (g_phase g, g_t g) | _ => None end) (snd r)))
    (adsr_run [SDo [CSub]; STick 1; STick 1; SDo [CUp (Nxt (true, None))]; STick 1; STick 2;
               SDo [CUp (Nxt (false, None))]; STick 1; STick 2; STick 1; SDo [CUp Cmp]; STick 1]) =
  Some (false, [Some (PNone, 0); Some (PAttack, 0); Some (PDecay, 2); Some (PRelease, 3); Some (PNone, 0); None]).
Proof. vm_compute. reflexivity. Qed.

(** A task that is scheduled before the operator's and pushes an activation is in time for the frame
    of that tick; one that is scheduled after it is not. *)
Definition presser (x : nat) (t : nat) (l : list (tev trigger signal nat)) : nat * bool * list (cmd trigger nat nat) :=
  (x, true, [CUp (Nxt (true, None))]).
Definition pressed (h : list (sact trigger nat nat)) : option (list phase) :=
  match syss (adsr straight true false (env3 2 2 3)) (fun _ => (false, [])) presser 100
          (start (adsr (E:=nat) (X:=nat) straight true false (env3 2 2 3)) 10) h with
  | Fine m => Some (flat_map (fun c => match c with Nxt g => [g_phase g] | _ => [] end) (outs (w_tr (m_world m))))
  | _ => None
  end.
Example C46_before_and_after_example :
  pressed [SDo [CReq (QSched 0 (KDelayed 2) 0); CSub]; STick 1; STick 1; STick 1] = Some [PNone; PAttack; PAttack] /\
  pressed [SDo [CSub; CReq (QSched 0 (KDelayed 2) 0)]; STick 1; STick 1; STick 1] = Some [PNone; PNone; PAttack].
Proof. vm_compute. auto. Qed.
