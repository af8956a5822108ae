(** Property C73: fallback_when_silent and throttle_time in a loop: the destination calls the source back.

    As in PropTimeRe.v. *)
From Coq Require Import Permutation.
From Verif Require Import Base SubscrModel SchedModel TimeModel TimeSpec TimeReModel TimeReSpec TimeReMoreModel TimeReMoreSpec
  TimeReFallback TimeReThrottle.
Set Implicit Arguments.

Notation destination B E X := (list (ncall B E) -> bool * list (req X)).
Notation others A B E X := (X -> nat -> list (tev A B E) -> X * bool * list (cmd A E X)).
Notation answers A E := (list (ncall A E) -> list (ncall A E)).

Definition down0 : destination nat nat nat := fun _ => (false, []).
Definition user0 : others nat nat nat nat := fun x _ _ => (x, true, []).
Definition n (k : nat) : cmd nat nat nat := CUp (Nxt k).
Definition trace {S O} (T : timed nat nat nat S O nat) h : list (tev nat nat nat) :=
  match syss T down0 user0 100 (start T 10) h with Fine m => w_tr (m_world m) | _ => [] end.
(** Told a value below 3 it pushes the next one, told 3 it completes the source. *)
Definition counts : answers nat nat := fun l =>
  match last l Cmp with
  | Nxt k => if k <? 3 then [Nxt (S k)] else if k =? 3 then [Cmp] else []
  | _ => []
  end.
(** Told 1 it makes [cs]. *)
Definition at1 (cs : list (ncall nat nat)) : answers nat nat := fun l =>
  match last l Cmp with Nxt 1 => cs | _ => [] end.
Definition silence (t i : nat) : nat := 100 + i.

(** fallback_when_silent, with any answers: each tick tells one value, the last one pushed since the tick
    before or the fallback (so a value pushed in answer to one is the next tick's); the end of the source
    is passed on before anything else happens, whichever it was, with at most unsubscriptions of the
    source in between. *)
Theorem C73_fallback_when_silent : forall A E X (fb : nat -> nat -> A) (down : destination A E X) (user : others A A E X)
    (answer : answers A E) fuel depth h m,
  syss (fallback_loop X answer fb) down user fuel (start (fallback_loop X answer fb) depth) h = Fine m ->
  let tr := w_tr (m_world m) in
  always (fallen_loop down fb) tr /\ ends_pass down tr /\ w_panic (m_world m) = false.
Proof. exact @fallback_loop_ok. Qed.
Print Assumptions C73_fallback_when_silent.

Example C73_fallback_when_silent_example :
  trace (fallback_loop nat counts silence) [SDo [CSub]; STick 2; SDo [n 1]; STick 2; STick 2; STick 2; STick 2] =
    [XSub; XTick 2; XOut (Nxt 100); XEnd; XUp (Nxt 1); XTick 4; XOut (Nxt 1); XUp (Nxt 2); XEnd; XTick 6; XOut (Nxt 2); XUp (Nxt 3); XEnd;
     XTick 8; XOut (Nxt 3); XUp Cmp; XOut Cmp; XEnd; XTick 10; XEnd] /\
  trace (fallback_loop nat (at1 [Nxt 8; Err 5; Uns; Nxt 9]) silence) [SDo [CSub; n 1]; STick 2; STick 2] =
    [XSub; XUp (Nxt 1); XTick 2; XOut (Nxt 1); XUp (Nxt 8); XUp (Err 5); XUp Uns; XOut (Err 5); XEnd; XTick 4; XEnd].
Proof. vm_compute. repeat split. Qed.

(** throttle_time, with any answers: all that C30 says, except that the source may be unsubscribed
    between its error and the destination's being told of it. *)
Theorem C73_throttle : forall A E X d leading trailing (down : destination A E X) (user : others A A E X) (answer : answers A E)
    fuel depth h m,
  syss (throttle_loop X answer d leading trailing) down user fuel (start (throttle_loop X answer d leading trailing) depth) h = Fine m ->
  let tr := w_tr (m_world m) in
  always (throttled_loop down d leading trailing) tr /\ answered down (@first_answer A E leading) tr /\ errors_pass down tr /\
  exists rest, Permutation (values tr ++ rest) (map snd (pushes tr)).
Proof. exact @throttle_loop_ok. Qed.
Print Assumptions C73_throttle.

(** No answers make its task panic (other tasks on the scheduler can: C49). *)
Theorem C73_throttle_no_panic : forall A E X d leading trailing (down : destination A E X) (user : others A A E X) (answer : answers A E),
  aloof user -> forall fuel depth h m,
  syss (throttle_loop X answer d leading trailing) down user fuel (start (throttle_loop X answer d leading trailing) depth) h = Fine m ->
  w_panic (m_world m) = false.
Proof. exact @throttle_loop_calm. Qed.
Print Assumptions C73_throttle_no_panic.

(** A value pushed in answer to one told at the end of a window waits for the end of the next; a source
    completed or unsubscribed meanwhile, too. *)
Example C73_throttle_example :
  aloof user0 /\
  trace (throttle_loop nat counts 2 true true) [SDo [CSub; n 7; n 1]; STick 2; STick 1; STick 1; STick 2; STick 2] =
    [XSub; XUp (Nxt 7); XOut (Nxt 7); XUp (Nxt 1); XTick 2; XOut (Nxt 1); XUp (Nxt 2); XEnd; XTick 3; XEnd;
     XTick 4; XOut (Nxt 2); XUp (Nxt 3); XEnd; XTick 6; XOut (Nxt 3); XUp Cmp; XOut Cmp; XEnd; XTick 8; XEnd] /\
  trace (throttle_loop nat (at1 [Nxt 8; Cmp; Uns]) 2 false true) [SDo [CSub; n 1]; STick 2; STick 2; STick 2] =
    [XSub; XUp (Nxt 1); XTick 2; XOut (Nxt 1); XUp (Nxt 8); XUp Cmp; XUp Uns; XEnd; XTick 4; XOut (Nxt 8); XOut Cmp; XEnd; XTick 6; XEnd] /\
  trace (throttle_loop nat (at1 [Nxt 8; Err 5; Uns]) 2 true true) [SDo [CSub; n 7; n 1]; STick 2; STick 2] =
    [XSub; XUp (Nxt 7); XOut (Nxt 7); XUp (Nxt 1); XTick 2; XOut (Nxt 1); XUp (Nxt 8); XUp (Err 5); XUp Uns; XOut (Err 5); XEnd; XTick 4; XEnd].
Proof. split; [intros x t l c []|vm_compute; repeat split]. Qed.
