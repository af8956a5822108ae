(** What retry should do, from what happened alone. *)
From Verif Require Import Base SubscrModel CombModel RetryModel.
Set Implicit Arguments.

Section Spec.
Variables A E : Type.
Variable down : list (ncall A E) -> bool.
Variable max : nat.
Notation ev := (ev A E).

(** What the destination was told. *)
Definition outs (l : list ev) : list (ncall A E) :=
  flat_map (fun e => match e with TOut c => [c] | _ => [] end) l.
(** The destination is open: it was not told that it is over, and did not close itself. *)
Definition open (l : list ev) : Prop :=
  forall os c os', outs l = os ++ c :: os' -> (exists b, c = Nxt b) /\ down (os ++ [c]) = false.
(** Each event was right given what happened before it. *)
Definition always (good : list ev -> ev -> Prop) (l : list ev) : Prop :=
  forall p e s, l = p ++ e :: s -> good p e.

Definition attempts (p : list ev) : nat :=
  length (filter (fun e => match e with TSub _ => true | _ => false end) p).
Definition failed (i : nat) (p : list ev) : Prop := exists x, In (TIn i (Err x)) p.

(** Attempts are made one after the other, each after the failure of all before. *)
Definition numbered (p : list ev) (e : ev) : Prop :=
  match e with
  | TSub j => j = attempts p /\ forall i, i < j -> failed i p
  | TIn j _ => j < attempts p
  | _ => True
  end.
(** What the destination must be told at once. *)
Definition owed (e : ev) : option (ncall A E) :=
  match e with
  | TIn _ (Nxt a) => Some (Nxt a)
  | TIn _ Cmp => Some Cmp
  | _ => None
  end.
Definition paid (l : list ev) : Prop :=
  forall p e s c, l = p ++ e :: s -> open p -> owed e = Some c -> exists s', s = TOut c :: s'.
(** It is told nothing else, except an error once [max + 1] attempts have failed; and it is
    unsubscribed only by the user, the source, or in the last attempt. *)
Definition relays (p : list ev) (e : ev) : Prop :=
  match e with
  | TOut c => open p /\
      match c with
      | Err x => (exists j, In (TIn j (Err x)) p) /\ forall i, i <= max -> failed i p
      | Uns => In TUser p \/ (exists j, In (TIn j Uns) p) \/ max < attempts p
      | _ => exists q e', p = q ++ [e'] /\ owed e' = Some c
      end
  | _ => True
  end.
(** After the user has unsubscribed, nothing but an unsubscription is passed on. *)
Definition obeys (p : list ev) (e : ev) : Prop :=
  match e with
  | TSub _ | TIn _ _ => ~ In TUser p
  | TOut c => In TUser p -> c = Uns
  | _ => True
  end.
(** An attempt is unsubscribed only if it has failed or everything is over. *)
Definition ends (p : list ev) (e : ev) : Prop :=
  match e with
  | TEnd j => failed j p \/ ~ open p \/ In TUser p \/ In (TIn j Uns) p
  | _ => True
  end.
(** A failure is followed by another attempt or the end. *)
Definition goes_on (l : list ev) : Prop := forall i, failed i l -> open l -> S i < attempts l.
Definition gives_up (l : list ev) : Prop := (forall i, i <= max -> failed i l) -> ~ open l.
(** No attempt fails after it was subscribed to. *)
Definition early (a : act A E) : bool := match a with AIn _ (Err _) => false | _ => true end.
End Spec.
Arguments early {A E} a.

(** Sources that are done when they have been subscribed to. *)
Section Sync.
Variables A E : Type.
Variable vs : nat -> list A.                  (* the values of each attempt *)
Variable ends : nat -> option E.              (* its error, if it does not complete *)
Variable tail : nat -> nat.                   (* how often the source unsubscribes in the end *)
Definition last_call (j : nat) : ncall A E := match ends j with Some e => Err e | None => Cmp end.
Definition sync (j : nat) : list (ncall A E) := map Nxt (vs j) ++ [last_call j] ++ repeat Uns (tail j).
(** What comes from the attempts from the [j]-th on if [left] more are allowed. *)
Fixpoint retried (left j : nat) : list (ncall A E) :=
  map Nxt (vs j) ++
  match ends j, left with
  | Some _, S l => retried l (S j)
  | _, _ => [last_call j]
  end.

End Sync.
