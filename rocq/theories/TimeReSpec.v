(** What delay, observe_on and debounce_time have to do when the destination calls the source back, as predicates of
    what happened ([tev] of TimeModel.v): what TimeSpec.v says, except that the source may be
    unsubscribed between its error and the destination's being told of it. *)
From Verif Require Import Base SubscrModel SchedModel TimeModel TimeSpec.
Set Implicit Arguments.

Section Loop.
Variables A E X : Type.
Variable down : list (ncall A E) -> bool * list (req X).
Notation ev := (tev A A E).

(** The source was unsubscribed, any number of times, and nothing else happened. *)
Definition idle (us : list ev) : Prop := Forall (fun e => e = XUp Uns) us.
(** [e] happened, and nothing since then. *)
Definition lately (e : ev) (p : list ev) : Prop := exists p' us, p = p' ++ e :: us /\ idle us.

(** An error of the source while the destination is open is passed on to it before anything else
    happens. *)
Definition errors_pass (l : list ev) : Prop :=
  forall p x s, l = p ++ XUp (Err x) :: s -> open down p ->
  exists us s', s = us ++ XOut (Err x) :: s' /\ idle us.

Definition delayed_loop (d : nat) (p : list ev) (e : ev) : Prop :=
  match e with
  | XOut (Err x) => open down p /\ lately (XUp (Err x)) p
  | _ => delayed down d p e
  end.
Definition debounced_loop (d : nat) (p : list ev) (e : ev) : Prop :=
  match e with
  | XOut (Err x) => open down p /\ lately (XUp (Err x)) p
  | _ => debounced down d p e
  end.
(** The destination pushes no values when it calls the source. *)
Definition answers_pushless (answer : list (ncall A E) -> list (ncall A E)) : Prop :=
  forall l a, ~ In (Nxt a) (answer l).
(** It makes no errors. *)
Definition answers_errorless (answer : list (ncall A E) -> list (ncall A E)) : Prop :=
  forall l x, ~ In (Err x) (answer l).
End Loop.
