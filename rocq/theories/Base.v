(** Shared vocabulary: notifications, call histories and the observer grammar. *)
From Coq Require Export List Arith Bool Lia.
Export ListNotations.
Set Implicit Arguments.

(** What an observer can be told.
    Models [ObserverNotification] of
    crates/rx_core_common/src/signals/notification_observer.rs:12-21 and the three
    methods of [RxObserver] (crates/rx_core_common/src/observer.rs:30-50). *)
Inductive notif (A E : Type) : Type :=
| NNext (a : A)
| NError (e : E)
| NComplete.
Arguments NNext {A E} a.
Arguments NError {A E} e.
Arguments NComplete {A E}.

(** How a sequence of values may (have) come to an end. *)
Inductive fin (E : Type) : Type :=
| FOpen            (* still running *)
| FErr (e : E)
| FDone
| FUnsub.
Arguments FOpen {E}.
Arguments FErr {E} e.
Arguments FDone {E}.
Arguments FUnsub {E}.

(** A well formed history of a source: its values and how it ended. *)
Definition trace (A E : Type) : Type := (list A * fin E)%type.

(** The observer grammar (docs/contracts.md, docs of [RxObserver]): any number
    of nexts, then at most one terminal notification, then nothing. *)
Fixpoint grammar {A E} (l : list (notif A E)) : Prop :=
  match l with
  | [] => True
  | NNext _ :: l' => grammar l'
  | NError _ :: l' => l' = []
  | NComplete :: l' => l' = []
  end.

(** The notifications an observer of a trace is given. *)
Definition notifs_of_fin {A E} (f : fin E) : list (notif A E) :=
  match f with
  | FErr e => [NError e]
  | FDone => [NComplete]
  | FOpen | FUnsub => []
  end.

Definition notifs_of {A E} (t : trace A E) : list (notif A E) :=
  map NNext (fst t) ++ notifs_of_fin (snd t).
