(** What subscribe_on has to do, as predicates of what happened. *)
From Verif Require Import Base SubscrModel SchedModel TimeModel TimeSpec.
Set Implicit Arguments.

Section Spec.
Variables A E X : Type.
Variable down : list (ncall A E) -> bool * list (req X).
Notation ev := (tev A A E).

(** How many subscriptions were made: the first is the one to the result of subscribe_on, the
    second is the one to the source. *)
Definition subs (l : list ev) : nat :=
  fold_left (fun n e => match e with XSub => S n | _ => n end) l 0.
Definition source_subscribed (l : list ev) : Prop := 2 <= subs l.

(** The source is subscribed to at most once, in a tick, not before the time of the
    subscription plus [d], and only if the destination is open; every tick leaves it
    subscribed to if it is due. The destination is told what the source just said, and
    nothing from before. *)
Definition subscribed_on (d : nat) (p : list ev) (e : ev) : Prop :=
  match e with
  | XSub => since p = None \/
      subs p = 1 /\ ticking p = true /\ open down p /\ exists s, since p = Some s /\ s + d <= clock p
  | XOut c => open down p /\ last_is p (XUp c) /\ (source_subscribed p \/ c = Uns)
  | XEnd => open down p -> forall s, since p = Some s -> s + d <= clock p -> source_subscribed p
  | _ => True
  end.

(** Once the source is subscribed to, everything it says is passed on at once; before,
    only the unsubscription. *)
Definition passed_on (p : list ev) (e : ev) : option (ncall A E) :=
  match e with
  | XUp Uns => Some Uns
  | XUp c => if 2 <=? subs p then Some c else None
  | _ => None
  end.

(** What the source said. *)
Definition said (l : list ev) : list (ncall A E) :=
  flat_map (fun e => match e with XUp c => [c] | _ => [] end) l.

(** What it said since it was subscribed to. *)
Definition heard (l : list ev) : list (ncall A E) :=
  snd (fold_left (fun x e => match e with
    | XSub => (S (fst x), snd x)
    | XUp c => (fst x, if 2 <=? fst x then snd x ++ [c] else snd x)
    | _ => x end) l (0, [])).

(** Everything up to the first terminal call. *)
Fixpoint to_end (l : list (ncall A E)) : list (ncall A E) :=
  match l with
  | [] => []
  | Nxt a :: l' => Nxt a :: to_end l'
  | c :: _ => [c]
  end.

(** No tick begins or ends, and no subscription is made. *)
Definition quiet (e : ev) : Prop := match e with XUp _ | XOut _ => True | _ => False end.
End Spec.
