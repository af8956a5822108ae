(** What is asked of components on entities; in terms of what was done, newest first, and what
    was told. Nothing here looks into a world. *)
From Coq Require Import Permutation.
From Verif Require Import Base CompModel.
Set Implicit Arguments.

Definition op_eq_dec : forall a b : op, {a = b} + {a <> b}.
Proof. decide equality; apply Nat.eq_dec. Defined.
Definition ev_eq_dec : forall a b : ev, {a = b} + {a <> b}.
Proof. decide equality; first [apply Nat.eq_dec | apply op_eq_dec]. Defined.
Definition times (x : ev) (l : list ev) : nat := count_occ ev_eq_dec l x.

Definition gone (h : list op) (e : nat) : Prop := In (ODespawn e) h.
Fixpoint goneb (h : list op) (e : nat) : bool :=
  match h with
  | [] => false
  | ODespawn e' :: h' => (e' =? e) || goneb h' e
  | _ :: h' => goneb h' e
  end.

(** What the entity's component of that type holds. *)
Fixpoint held (h : list op) (e k : nat) : option nat :=
  match h with
  | [] => None
  | OInsert e' k' j :: h' =>
      if (e' =? e) && (k' =? k) then (if goneb h' e then None else Some j) else held h' e k
  | ORemove e' k' :: h' => if (e' =? e) && (k' =? k) then None else held h' e k
  | ODespawn e' :: h' => if e' =? e then None else held h' e k
  | _ :: h' => held h' e k
  end.

(** Insertions less removals. *)
Fixpoint copies (h : list op) (e k : nat) : nat :=
  match h with
  | [] => 0
  | OInsert e' k' _ :: h' =>
      if (e' =? e) && (k' =? k) && negb (goneb h' e) then S (copies h' e k) else copies h' e k
  | ORemove e' k' :: h' =>
      if (e' =? e) && (k' =? k) && (match held h' e k with Some _ => true | None => false end)
      then pred (copies h' e k) else copies h' e k
  | ODespawn e' :: h' => if e' =? e then 0 else copies h' e k
  | _ :: h' => copies h' e k
  end.

(** A component is never inserted over one of its type. *)
Fixpoint careful (h : list op) : Prop :=
  match h with
  | [] => True
  | OInsert e k j :: h' => held h' e k = None /\ careful h'
  | _ :: h' => careful h'
  end.

(** How often [j] was inserted there. *)
Fixpoint inserted (h : list op) (e k j : nat) : nat :=
  match h with
  | [] => 0
  | OInsert e' k' j' :: h' =>
      (if (e' =? e) && (k' =? k) && (j' =? j) && negb (goneb h' e) then 1 else 0) + inserted h' e k j
  | _ :: h' => inserted h' e k j
  end.

Section Told.
  Variable ins : nat -> option nat.
  Variable outs : nat -> nat.
  Variable order : nat -> list sat -> list sat.
  Definition trace (h : list op) : list ev := w_tr (run ins outs order h).
  (** What the last operation told. *)
  Definition told (h : list op) : list ev :=
    match h with
    | [] => []
    | o :: h' => skipn (S (length (trace h'))) (trace h)
    end.
  (** The satellites of that entity and component type. *)
  Definition satellites (h : list op) (e k : nat) : list sat :=
    filter (fun s => (s_on s =? e) && (s_kind s =? k)) (w_sats (run ins outs order h)).
End Told.

(** Whatever the order, none is lost or made up. *)
Definition fair (order : nat -> list sat -> list sat) : Prop := forall n l, Permutation (order n l) l.

(** Is there an [ObservableOutputs] of those types on the entity? *)
Definition outputs (ins : nat -> option nat) (outs : nat -> nat) (order : nat -> list sat -> list sat)
  (h : list op) (e ty : nat) : bool := w_outputs (run ins outs order h) e ty.
(** Is it a subject? *)
Definition subject (ins : nat -> option nat) (k : nat) : bool := match ins k with Some _ => true | None => false end.
