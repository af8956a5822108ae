(** The result of flattening, as a function of what was heard from the outer and the inner
    observables. *)
From Verif Require Import Base SubscrModel CombModel HoModel HoSpec MergeModel.
Set Implicit Arguments.

Section Spec.
Variables A E : Type.
Notation call := (ncall A E).
Variable down : list call -> bool.

(** Up to the call after which the destination has closed itself. *)
Fixpoint until (before : list call) (l : list call) : list call :=
  match l with
  | [] => []
  | c :: l' => c :: if down (before ++ [c]) then [] else until (before ++ [c]) l'
  end.

(** Values as they come; the first error; completion when the outer observable and the inner ones
    have completed. [m] have not completed yet. *)
Fixpoint merged (m : nat) (outer_done : bool) (l : list (ev A E)) : list call :=
  match l with
  | [] => []
  | TArrive _ :: l' => merged (S m) outer_done l'
  | TIn _ (Nxt a) :: l' => Nxt a :: merged m outer_done l'
  | TIn _ (Err x) :: _ | TUp (Err x) :: _ => [Err x]
  | TIn _ Cmp :: l' => if outer_done && (m =? 1) then [Cmp] else merged (m - 1) outer_done l'
  | TUp Cmp :: l' => if m =? 0 then [Cmp] else merged m true l'
  | TUp Uns :: _ => [Uns]
  | _ :: l' => merged m outer_done l'
  end.

(** What an inner observable did, as far as it was heard. *)
Definition input (i : nat) (l : list (ev A E)) : list call :=
  flat_map (fun e => match e with TIn j c => if j =? i then [c] else [] | _ => [] end) l.
(** One after the other: the values of each up to its completion. *)
Fixpoint splice (l rest : list call) : list call :=
  match l with
  | Nxt a :: l' => Nxt a :: splice l' rest
  | Err x :: _ => [Err x]
  | Cmp :: _ => rest
  | _ => []
  end.
Fixpoint chained (outer_done : bool) (ls : list (list call)) : list call :=
  match ls with
  | [] => if outer_done then [Cmp] else []
  | l :: ls' => splice l (chained outer_done ls')
  end.
(** The outer observable neither errors nor is it unsubscribed. *)
Definition peaceful (h : list (act A E)) : bool :=
  forallb (fun a => match a with AErr _ | AUns => false | _ => true end) h.

(** An inner observable that is over when it has been subscribed to. *)
Definition final (c : call) : bool := match c with Cmp | Err _ => true | _ => false end.
Definition synchronous (l : list call) : Prop := exists (vs : list A) c rest, l = map Nxt vs ++ c :: rest /\ final c = true.
(** What is done to the concat and merge observables later: their observables make calls. *)
Definition later (h : list (act A E)) : bool :=
  forallb (fun a => match a with AInner _ c => negb (is_uns c) | _ => false end) h.
(** None of the observables unsubscribes its subscriber without completing it. *)
Definition completes (ls : list (list call)) : bool := forallb (forallb (fun c => negb (is_uns c))) ls.
End Spec.
