(** The tasks of the observables in PollModel.v on a destination that calls back.
    No proofs in this file. *)
From Verif Require Import Base SubscrModel SharedModel.
Set Implicit Arguments.

(** The tasks with a destination that calls back: [shared] of SharedModel.v is the
    [SharedSubscriber] all three keep the destination in. Ticks, each with the values to be
    emitted, and calls made on clones of the shared subscriber in between (as the
    subscription's [unsubscribe] is). Simplified: there is no scheduler; the task is run in
    each tick until it says it is done, also when the destination's teardown would have
    cancelled it. *)
Inductive pact (A E : Type) : Type := PTick (l : list A) | PCall (n : ncall A E).
Arguments PTick {A E} l.
Arguments PCall {A E} n.

Section Reentrant.
Context {A E : Type} (D : dest A E).
Notation S := (shared D).

(** Messages: the destination is locked by the task ([lock()],
    message_subscription.rs:38), which looks only at the
    destination itself and leaves the queue alone. *)
Fixpoint locked_messages (l : list A) (s : S) : bool * S :=
  match l with
  | [] => (false, s)
  | a :: l' => let s1 := deliver s (Nxt a) in
               if dclosed D (sh_dst s1) then (true, s1) else locked_messages l' s1
  end.
Definition message_tick (l : list A) (s : S) : bool * outcome D :=
  if dclosed D (sh_dst s) then (true, Fine s)
  else let '(done, s1) := locked_messages l s in (done, Fine s1).

(** Keyboard: each key through the shared subscriber, keyboard_subscription.rs:50-57. *)
Fixpoint keyboard_tick (l : list A) (s : S) : bool * outcome D :=
  match l with
  | [] => (false, Fine s)
  | a :: l' => if sh_closed s then (true, Fine s)
               else match top_call s (Nxt a) with
                    | Fine s1 => keyboard_tick l' s1
                    | o => (true, o)
                    end
  end.

(** Resource: at most one value, resource_subscription.rs:66-77. *)
Definition resource_tick (l : list A) (s : S) : bool * outcome D :=
  match match l with a :: _ => top_call s (Nxt a) | [] => Fine s end with
  | Fine s1 => (sh_closed s1, Fine s1)
  | o => (true, o)
  end.

(** A history. [done]: the task is done. *)
Fixpoint polls (tick : list A -> S -> bool * outcome D) (done : bool) (s : S) (h : list (pact A E)) : outcome D :=
  match h with
  | [] => Fine s
  | PCall n :: h' => match top_call s n with Fine s1 => polls tick done s1 h' | o => o end
  | PTick l :: h' =>
      if done then polls tick done s h'
      else match tick l s with
           | (done', Fine s1) => polls tick done' s1 h'
           | (_, o) => o
           end
  end.
End Reentrant.
