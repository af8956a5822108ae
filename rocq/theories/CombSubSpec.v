(** What the runs of a combining observable are given, for the statements about CombSubModel.v. *)
From Verif Require Import Base SubscrModel LifeModel LifeProofs CombModel CombSpec CombSubModel.
Set Implicit Arguments.

Section Sent.
Variables A1 A2 E : Type.
Notation event := (either2 A1 A2 E).
Fixpoint ins_calls (l : list (inside A1 A2 E)) : list event :=
  match l with [] => [] | INCall e :: r => e :: ins_calls r | INUnsub :: r => ins_calls r end.
Fixpoint sub_calls (l : list (event * list (inside A1 A2 E) * bool)) : list event :=
  match l with [] => [] | (e, ins, _) :: r => (e :: ins_calls ins) ++ sub_calls r end.
Fixpoint ev_calls (l : list (cevent A1 A2 E)) : list event :=
  match l with [] => [] | CEmit e ins _ :: r => (e :: ins_calls ins) ++ ev_calls r | _ :: r => ev_calls r end.
Definition of (i : side) (p : list event) : list event := filter (fun e => side_eqb i (src e)) p.
Fixpoint times (i : side) (l : list side) : nat :=
  match l with [] => 0 | j :: r => (if side_eqb i j then 1 else 0) + times i r end.

(** What the sources would call if they were never let go: the second one only from when it is
    subscribed to. *)
Definition called (b1 b2 : source A1 A2 E) (l : list event) (i : side) : list event :=
  match i with
  | One => of One (sub_calls (b_calls b1) ++ sub_calls (b_calls b2) ++ l)
  | Two => of Two (sub_calls (b_calls b2) ++ l)
  end.
(** Both keep the observer contract. *)
Definition lawful_sources (b1 b2 : source A1 A2 E) (l : list (cevent A1 A2 E)) : Prop :=
  contract false false (on1 (called b1 b2 (ev_calls l) One)) /\
  contract false false (on2 (called b1 b2 (ev_calls l) Two)).
(** The subscriptions that are closed already when they are returned. *)
Definition at_once (b1 b2 : source A1 A2 E) : list side :=
  (if b_closed b1 then [One] else []) ++ (if b_closed b2 then [Two] else []).

(** The four observables, with what their subscriber should tell (CombSpec.v). *)
Inductive combining : forall B St, (list (ncall B E) -> bool) -> bool -> (list event -> event -> list (ncall B E)) ->
    (event -> St -> told B E -> option (St * told B E)) -> St -> Prop :=
| is_zip : forall max o down, 0 < max ->
    combining down true (zipq_answer max o) (zip_next down) (nq_new A1 E max o, nq_new A2 E max o)
| is_combine_latest : forall down,
    combining down true (@cl_answer A1 A2 E) (combine_latest_next down) (ns_new, ns_new)
| is_combine_changes : forall down,
    combining down true (@cc_answer A1 A2 E) (combine_changes_next down) (ns_new, ns_new)
| is_join : forall down,
    combining down false (@join_answer A1 A2 E) (join_next down) (ns_new, ns_new).
End Sent.
