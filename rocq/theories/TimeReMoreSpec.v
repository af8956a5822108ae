(** What fallback_when_silent and throttle_time have to do when the destination calls the source back,
    as predicates of what happened ([tev] of TimeModel.v): what TimeSpec.v says, except that the
    source may be unsubscribed between its end and the destination's being told of it. *)
From Verif Require Import Base SubscrModel SchedModel TimeModel TimeSpec TimeReSpec.
Set Implicit Arguments.

Section Loop.
Variables A E X : Type.
Variable down : list (ncall A E) -> bool * list (req X).
Notation ev := (tev A A E).

(** The source was not over. *)
Definition going (p : list ev) : Prop := forall c, In (XUp c) p -> exists a, c = Nxt a.
(** The end of the source (its being unsubscribed too) while the destination is open is passed on to it
    before anything else happens. *)
Definition ends_pass (l : list ev) : Prop :=
  forall p c s, l = p ++ XUp c :: s -> going p -> (forall a, c <> Nxt a) -> open down p ->
  exists us s', s = us ++ XOut c :: s' /\ idle us.

Definition fallen_loop (fb : nat -> nat -> A) (p : list ev) (e : ev) : Prop :=
  match e with
  | XOut (Nxt a) => fallen down fb p e
  | XOut c => open down p /\ lately (XUp c) p
  | _ => fallen down fb p e
  end.

Definition throttled_loop (d : nat) (leading trailing : bool) (p : list ev) (e : ev) : Prop :=
  match e with
  | XOut (Err x) => open down p /\ lately (XUp (Err x)) p
  | _ => throttled down d leading trailing p e
  end.
(** With the leading edge, the first value is passed on at once. *)
Definition first_answer (leading : bool) (p : list ev) (e : ev) : option (ncall A E) :=
  match e with
  | XUp (Nxt a) => if leading then match pushes p with [] => Some (Nxt a) | _ => None end else None
  | _ => None
  end.
End Loop.
