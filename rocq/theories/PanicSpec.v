(** What is expected of a destination that panics, in terms of the history. *)
From Verif Require Import Base PanicModel.
From Coq Require Import Permutation.
Set Implicit Arguments.

Section Spec.
Variables A E : Type.
(** The teardowns added: through an [Arc], or a [Weak] at any time. *)
Fixpoint added (alive : bool) (h : list (hop A E)) : list nat :=
  match h with
  | [] => []
  | HArc (OAdd t) :: h' => if alive then t :: added alive h' else added alive h'
  | HWeak (OAdd t) :: h' => t :: added alive h'
  | HDrop :: h' => added false h'
  | _ :: h' => added alive h'
  end.
(** The same for a SharedSubscriber. *)
Fixpoint sadded (h : list (sop A E)) : list nat :=
  match h with
  | [] => []
  | SOp (OAdd t) :: h' => t :: sadded h'
  | SDrop :: _ => []
  | _ :: h' => sadded h'
  end.
(** No teardown panics. *)
Definition quiet (tboom : nat -> bool) : Prop := forall t, tboom t = false.
(** The teardowns [ad] were added: none was executed twice or without having been added; if
    none panics then each has been executed or is going to be, and all have when it is closed. *)
Definition once (tboom : nat -> bool) (ad : list nat) (d : dest A E) : Prop :=
  (forall t, count_occ Nat.eq_dec (d_ran d) t <= count_occ Nat.eq_dec ad t) /\
  (quiet tboom -> Permutation ad (d_ran d ++ d_fin d)) /\
  (d_closed d = true -> d_fin d = []).
(** No teardown is added, and it is not dropped. *)
Definition calls_only (h : list (sop A E)) : Prop :=
  Forall (fun o => match o with SOp (OAdd _) | SDrop => False | _ => True end) h.
End Spec.
