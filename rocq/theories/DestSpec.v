(** What EntityDestination and ResourceDestination have to do, as predicates of what
    happened. *)
From Verif Require Import Base SubscrModel SchedModel TimeModel TimeSpec DestModel.
Set Implicit Arguments.

Section Spec.
Variables A E F X : Type.
Notation N := (notice A E).
Notation ev := (tev (N + bool) N F).

(** Does the entity exist. *)
Definition there (s : bool) (l : list ev) : bool :=
  fold_left (fun b e => match e with XUp (Nxt (inr b')) => b' | _ => b end) l s.

(** What the observer was told. *)
Definition signals (l : list ev) : list N :=
  flat_map (fun e => match e with XUp (Nxt (inl n)) => [n] | _ => [] end) l.

(** What the world has still to be told: what was not told, except if the entity did not
    exist in a tick: then what was to be told in that tick is lost. *)
Definition owed (s : bool) (l : list ev) : list N :=
  snd (fold_left (fun (x : bool * list N) e => match e with
    | XUp (Nxt (inr b)) => (b, snd x)
    | XUp (Nxt (inl n)) => (fst x, snd x ++ [n])
    | XOut (Nxt _) => (fst x, tl (snd x))
    | XEnd => (fst x, if fst x then snd x else [])
    | _ => x
    end) l (s, [])).

(** It is told what it is owed, in order, in ticks in which the entity exists, and all of it
    by the end of the tick. *)
Definition delivered (s : bool) (p : list ev) (e : ev) : Prop :=
  match e with
  | XOut c => ticking p = true /\ there s p = true /\ exists n rest, c = Nxt n /\ owed s p = n :: rest
  | XEnd => there s p = true -> owed s p = []
  | _ => True
  end.

(** The entity exists all along. *)
Definition lives (s : bool) (l : list ev) : Prop := forall p r, l = p ++ r -> there s p = true.

(** The entity is spawned or despawned only between ticks. *)
Definition stays (user : X -> nat -> list ev -> X * bool * list (cmd (N + bool) F X)) : Prop :=
  forall x t l b, ~ In (CUp (Nxt (inr b))) (snd (user x t l)).

(** The world listens: it does not close. *)
Definition listens (down : list (ncall N F) -> bool * list (req X)) : Prop :=
  forall l, fst (down l) = false.
End Spec.
