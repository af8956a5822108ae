(** Property C68: delay, observe_on and debounce_time in a loop: the destination calls the source back.

    As in PropTime.v; in addition [answer] says which calls the destination makes on the operator's
    source while a task of the operator tells it something, depending on all it was told. The source
    makes them if it may (it makes no calls after its end, except that it is unsubscribed). *)
From Coq Require Import ZArith.
From Verif Require Import Base SubscrModel SchedModel TimeModel TimeSpec TimeReModel TimeReSpec TimeReDelay TimeReObserve
  TimeReDebounce.
Set Implicit Arguments.

Notation destination B E X := (list (ncall B E) -> bool * list (req X)).
Notation others A B E X := (X -> nat -> list (tev A B E) -> X * bool * list (cmd A E X)).
Notation answers A E := (list (ncall A E) -> list (ncall A E)).

Definition down0 : destination nat nat nat := fun _ => (false, []).
Definition user0 : others nat nat nat nat := fun x _ _ => (x, true, []).
Definition n (k : nat) : cmd nat nat nat := CUp (Nxt k).
Definition trace {S O} (T : timed nat nat nat S O nat) h : list (tev nat nat nat) :=
  match syss T down0 user0 100 (start T 10) h with Fine m => w_tr (m_world m) | _ => [] end.
(** Told a value below 3 it pushes the next one, told 3 it completes the source. *)
Definition counts : answers nat nat := fun l =>
  match last l Cmp with
  | Nxt k => if k <? 3 then [Nxt (S k)] else [Cmp]
  | _ => []
  end.
(** Told 1 it makes [cs]. *)
Definition at1 (cs : list (ncall nat nat)) : answers nat nat := fun l =>
  match last l Cmp with Nxt 1 => cs | _ => [] end.

(** delay, with any answers: all that C28 says, except that the source may be unsubscribed between its
    error and the destination's being told of it. The queue of deferred calls never gets too deep. *)
Theorem C68_delay : forall A E X (down : destination A E X) (user : others A A E X) (answer : answers A E) d fuel depth h m,
  syss (delay_loop X answer d) down user fuel (start (delay_loop X answer d) depth) h = Fine m ->
  let tr := w_tr (m_world m) in
  always (delayed_loop down d) tr /\ errors_pass down tr /\
  (open down tr -> In (XUp Cmp) tr -> length (values tr) < length (pushes tr)) /\
  w_panic (m_world m) = false.
Proof. exact @delay_loop_ok. Qed.
Print Assumptions C68_delay.

(** Each round takes 2 units of time. An error made while 1 is told comes after it, although 7 was
    due: the error is passed on at once. *)
Example C68_delay_example :
  let h := [SDo [CSub; n 1]; STick 2; STick 2; STick 2; STick 2] in
  pushes (trace (delay_loop nat counts 2) h) = [(0, 1); (2, 2); (4, 3)] /\
  outs (trace (delay_loop nat counts 2) h) = [Nxt 1; Nxt 2; Nxt 3; Cmp] /\
  trace (delay_loop nat (at1 [Err 5; Uns; Nxt 8]) 2) [SDo [CSub; n 1; n 7]; STick 2; STick 2] =
    [XSub; XUp (Nxt 1); XUp (Nxt 7); XTick 2; XOut (Nxt 1); XUp (Err 5); XUp Uns; XOut (Err 5); XEnd; XTick 4; XEnd] /\
  outs (trace (delay_loop nat (at1 [Uns]) 2) [SDo [CSub; n 1; n 7]; STick 2; STick 2]) = [Nxt 1; Nxt 7; Uns].
Proof. vm_compute. repeat split. Qed.

(** observe_on, if the destination makes no errors when it calls back: all that C31 says. *)
Theorem C68_observe_on_partial : forall A E X (down : destination A E X) (user : others A A E X) (answer : answers A E),
  answers_errorless answer -> forall fuel depth h m,
  syss (observe_on_loop X answer) down user fuel (start (observe_on_loop X answer) depth) h = Fine m ->
  let tr := w_tr (m_world m) in
  always (observed down) tr /\ answered down (@errors A E) tr /\
  (open down tr -> In (XUp Cmp) tr -> length (values tr) < length (pushes tr)) /\
  w_panic (m_world m) = false.
Proof. exact @observe_on_loop_ok. Qed.
Print Assumptions C68_observe_on_partial.

(** With errors it is false: if no other value is pending, the task unsubscribes the destination
    instead, and the error is lost. *)
Theorem C68_observe_on_error_refuted : exists (answer : answers nat nat) h m,
  syss (observe_on_loop nat answer) down0 user0 100 (start (observe_on_loop nat answer) 10) h = Fine m /\
  let tr := w_tr (m_world m) in
  tr = [XSub; XUp (Nxt 1); XTick 1; XOut (Nxt 1); XUp (Err 5); XOut Uns; XEnd; XTick 2; XEnd] /\
  ~ errors_pass down0 tr.
Proof.
  exists (at1 [Err 5]), [SDo [CSub; n 1]; STick 1; STick 1]. eexists. split; [vm_compute; reflexivity|]. split; [reflexivity|].
  intros H. edestruct (H [XSub; XUp (Nxt 1); XTick 1; XOut (Nxt 1)] 5) as (us & s' & E & Hi); [reflexivity| |].
  - intros os c os' Ho. destruct os as [|o os]; [injection Ho as <- <-; simpl; eauto|destruct os; discriminate].
  - destruct us as [|u us]; [discriminate|]. injection E as E1 E2. subst u. inversion Hi. discriminate.
Qed.
Print Assumptions C68_observe_on_error_refuted.

(** All rounds of a loop are in the same tick (if there are more than the scheduler's limit, it panics:
    here 10). With another value pending, the error is passed on. *)
Example C68_observe_on_example :
  answers_errorless counts /\
  trace (observe_on_loop nat counts) [SDo [CSub; n 1]; STick 2; STick 2] =
    [XSub; XUp (Nxt 1); XTick 2; XOut (Nxt 1); XUp (Nxt 2); XOut (Nxt 2); XUp (Nxt 3); XOut (Nxt 3); XUp Cmp; XOut Cmp; XEnd;
     XTick 4; XEnd] /\
  outs (trace (observe_on_loop nat (at1 [Err 5])) [SDo [CSub; n 1; n 7]; STick 1]) = [Nxt 1; Err 5] /\
  (exists m, syss (observe_on_loop nat (fun _ => [Nxt 1])) down0 user0 100 (start (observe_on_loop nat (fun _ => [Nxt 1])) 10)
     [SDo [CSub; n 1]; STick 1] = Panic m).
Proof.
  split; [|vm_compute; repeat split; eexists; reflexivity].
  intros l x. unfold counts. destruct (last l Cmp) as [k| | |]; simpl; try tauto. destruct (k <? 3); simpl; intros [|[]]; discriminate.
Qed.

(** debounce_time, if no values are pushed by the destination when it calls back (nor, as in C29, by
    tasks on the same scheduler): all that C29 says, except for the unsubscription as above. *)
Theorem C68_debounce_partial : forall A E X (down : destination A E X) (user : others A A E X) (answer : answers A E) d,
  pushless user -> answers_pushless answer -> forall fuel depth h m,
  syss (debounce_loop X answer d) down user fuel (start (debounce_loop X answer d) depth) h = Fine m ->
  let tr := w_tr (m_world m) in
  always (debounced_loop down d) tr /\ errors_pass down tr /\
  (open down tr -> In (XUp Cmp) tr -> pending tr <> None) /\ w_panic (m_world m) = false.
Proof. exact @debounce_loop_ok. Qed.
Print Assumptions C68_debounce_partial.

(** With values it is false: the task takes the value pushed meanwhile for its own, so that a completion
    before it is due loses it. *)
Theorem C68_debounce_refuted : exists (answer : answers nat nat) h m,
  syss (debounce_loop nat answer 3) down0 user0 100 (start (debounce_loop nat answer 3) 10) h = Fine m /\
  let tr := w_tr (m_world m) in
  pushes tr = [(0, 1); (3, 2)] /\ outs tr = [Nxt 1; Cmp].
Proof.
  exists (at1 [Nxt 2]), [SDo [CSub; n 1]; STick 3; SDo [CUp Cmp]; STick 5; STick 5]. eexists. vm_compute. repeat split.
Qed.
Print Assumptions C68_debounce_refuted.

Example C68_debounce_example :
  pushless user0 /\ answers_pushless (at1 [Cmp; Uns]) /\ answers_pushless (at1 [Err 5]) /\
  outs (trace (debounce_loop nat (at1 [Cmp; Uns]) 3) [SDo [CSub; n 4; n 1]; STick 3; STick 5]) = [Nxt 1; Cmp] /\
  outs (trace (debounce_loop nat (at1 [Err 5]) 3) [SDo [CSub; n 1]; STick 3; STick 5]) = [Nxt 1; Err 5].
Proof.
  split; [intros x t l a []|]. split; [|split; [|vm_compute; repeat split]];
  intros l a; unfold at1; destruct (last l Cmp) as [[|[|k]]| | |]; simpl; try tauto; intuition discriminate.
Qed.
