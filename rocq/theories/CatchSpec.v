(** What catch should do. *)
From Verif Require Import Base SubscrModel LifeModel CombModel CatchModel.
Set Implicit Arguments.

Section Spec.
Variables A E1 E2 : Type.
Variable down : list (ncall A E2) -> bool.
Variable mapper : E1 -> list (ncall A E2).
Notation act := (act A E1 E2).

(** The calls of a list up to the one that ends it, or after which the destination has closed. *)
Fixpoint upto (before l : list (ncall A E2)) : list (ncall A E2) :=
  match l with
  | [] => []
  | c :: r => c :: if is_closing c || down (before ++ [c]) then [] else upto (before ++ [c]) r
  end.

(** What the replacement sends after it was subscribed to; unsubscribing ends it. *)
Fixpoint replaced (h : list act) : list (ncall A E2) :=
  match h with
  | [] => []
  | Inn c :: r => c :: replaced r
  | Src Uns :: _ => [Uns]
  | Src _ :: r => replaced r
  end.
(** The source up to its error, then its replacement. *)
Fixpoint caught (h : list act) : list (ncall A E2) :=
  match h with
  | [] => []
  | Src (Nxt a) :: r => Nxt a :: caught r
  | Src (Err e) :: r => mapper e ++ replaced r
  | Src Cmp :: _ => [Cmp]
  | Src Uns :: _ => [Uns]
  | Inn _ :: r => caught r
  end.
(** The calls of the source. *)
Definition source (h : list act) : list (ncall A E1) :=
  flat_map (fun a => match a with Src c => [c] | Inn _ => [] end) h.
End Spec.
