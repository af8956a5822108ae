(** What a connectable observable should do, from what happened alone. *)
From Verif Require Import Base SubscrModel LifeModel CombModel ShareModel.
From Coq Require Import Permutation.
Set Implicit Arguments.

Section Spec.
Variables A E : Type.
Notation call := (ncall A E).
Notation ev := (ev A E).
Variable o : opts.
Variable down : nat -> list call -> bool.

(** Each event was right given what happened before it. *)
Definition always (good : list ev -> ev -> Prop) (l : list ev) : Prop :=
  forall p e s, l = p ++ e :: s -> good p e.
(** Each event was followed by what it asks for. *)
Definition answers (ask : list ev -> ev -> list ev -> Prop) (l : list ev) : Prop :=
  forall p e s, l = p ++ e :: s -> ask p e s.

Definition is_end (x : call) : bool := match x with Err _ | Cmp => true | _ => false end.
(** Connections made. *)
Definition subs (p : list ev) : nat :=
  length (filter (fun e => match e with TSub _ _ => true | _ => false end) p).
Definition subscribed (k : nat) (p : list ev) : bool :=
  existsb (fun e => match e with TSub j _ => j =? k | _ => false end) p.
Definition stopped (k : nat) (p : list ev) : bool :=
  existsb (fun e => match e with
                    | TEnd j => j =? k | TReady j b => negb b && (j =? k)
                    | TIn j x => is_closing x && (j =? k) | _ => false end) p.
Definition running (k : nat) (p : list ev) : bool := subscribed k p && negb (stopped k p).
(** [connect] has returned. *)
Definition ready (k : nat) (p : list ev) : bool :=
  existsb (fun e => match e with TReady j _ => j =? k | _ => false end) p.
(** The source has completed or failed. *)
Definition finished (p : list ev) : bool :=
  existsb (fun e => match e with TIn _ x => is_end x | _ => false end) p.
(** So has it for connector [c]. *)
Definition over (c : nat) (p : list ev) : Prop :=
  exists k x, In (TSub k c) p /\ In (TIn k x) p /\ is_end x = true.

(** Those who joined, and those of them who have not left. *)
Definition joined (p : list ev) : list nat :=
  flat_map (fun e => match e with TJoin i _ => [i] | _ => [] end) p.
Definition joined_to (c : nat) (p : list ev) : list nat :=
  flat_map (fun e => match e with TJoin i d => if d =? c then [i] else [] | _ => [] end) p.
Definition left (i : nat) (p : list ev) : bool :=
  existsb (fun e => match e with TLeave j => j =? i | _ => false end) p.
Definition present (p : list ev) : list nat := filter (fun i => negb (left i p)) (joined p).
Definition members (c : nat) (p : list ev) : list nat := filter (fun i => negb (left i p)) (joined_to c p).
Definition told (i : nat) (p : list ev) : list call :=
  flat_map (fun e => match e with TOut j x => if j =? i then [x] else [] | _ => [] end) p.
Definition outs (p : list ev) : list (nat * call) :=
  flat_map (fun e => match e with TOut j x => [(j, x)] | _ => [] end) p.
(** Events that are not consequences of others. *)
Definition input (e : ev) : bool :=
  match e with TOut _ _ | TLeave _ | TEnd _ => false | _ => true end.

(** The source is subscribed to only while no subscription to it is running. *)
Definition one (p : list ev) (e : ev) : Prop :=
  match e with TSub k _ => k = subs p /\ forall j, running j p = false | _ => True end.
(** It is heard only while it is subscribed to. *)
Definition heard (p : list ev) (e : ev) : Prop :=
  match e with TIn k _ => running k p = true | _ => True end.
(** What it says is told at once to all who joined the connector of its connection and have not
    left, and to nobody else. *)
Definition shared (p : list ev) (e : ev) (s : list ev) : Prop :=
  match e with
  | TIn k Uns => True
  | TIn k x => forall c, In (TSub k c) p -> exists s1 s2, s = s1 ++ s2 /\
      forallb (fun e => negb (input e)) s1 = true /\
      Permutation (outs s1) (map (fun i => (i, x)) (members c p))
  | _ => True
  end.
(** Whoever is told something was there when the source said it; or comes later than the end of the
    connector, and is told the end, which was not to reset it. *)
Definition tells (p : list ev) (e : ev) : Prop :=
  match e with
  | TOut i x =>
      (exists k c q r, p = q ++ TIn k x :: r /\ forallb (fun e => negb (input e)) r = true /\
         In (TSub k c) q /\ In i (members c q) /\ In i (present p)) \/
      (~ In i (joined p) /\ told i p = [] /\ (exists k, In (TIn k x) p) /\
       ((exists y, x = Err y /\ o_error o = false) \/ x = Cmp /\ o_complete o = false))
  | _ => True
  end.
(** One who is told the end or closes themself leaves at once. *)
Definition quits (p : list ev) (e : ev) (s : list ev) : Prop :=
  match e with
  | TOut i x => In i (present p) -> is_closing x || down i (told i p ++ [x]) = true -> exists s', s = TLeave i :: s'
  | _ => True
  end.
(** All join the connector of the running connection. *)
Definition joins (p : list ev) (e : ev) : Prop :=
  match e with TJoin i c => ~ In i (joined p) /\ forall k, running k p = true -> In (TSub k c) p | _ => True end.
Definition leaves (p : list ev) (e : ev) : Prop :=
  match e with TLeave i => In i (present p) | _ => True end.

(** A connection is ended only by the user, or when the last subscriber leaves. *)
Definition ends (p : list ev) (e : ev) : Prop :=
  match e with
  | TEnd k => running k p = true /\
      exists q, p = q ++ [TUser] \/
        exists i, p = q ++ [TLeave i] /\ o_zero o = true /\ present p = [] /\ finished p = false
  | _ => True
  end.
(** It is ended when the last subscriber leaves. *)
Definition dropped (p : list ev) (e : ev) (s : list ev) : Prop :=
  match e with
  | TLeave i => o_zero o = true -> present (p ++ [TLeave i]) = [] -> finished p = false ->
      forall k, running k p = true -> ready k p = true -> exists s', s = TEnd k :: s'
  | _ => True
  end.

(** The connector used. *)
Definition uses (e : ev) : option nat := match e with TJoin _ c => Some c | TSub _ c => Some c | _ => None end.
Definition used (c : nat) (p : list ev) : Prop := exists e, In e p /\ uses e = Some c.
(** What may replace it, and what does. *)
Definition keeps (e : ev) : bool :=
  match e with
  | TReset => false
  | TEnd _ | TIn _ Uns => negb (o_disconnect o)
  | TIn _ (Err _) => negb (o_error o)
  | TIn _ Cmp => negb (o_complete o)
  | _ => true
  end.
Definition resets (p : list ev) (e : ev) : Prop :=
  keeps e = false /\ match e with TEnd k | TIn k _ => forall c, In (TSub k c) p -> ~ over c p | _ => True end.
Definition same (p : list ev) (e : ev) : Prop :=
  forall c, uses e = Some c ->
  forall q e' r c', p = q ++ e' :: r -> uses e' = Some c' -> forallb keeps r = true -> c' = c.
Definition fresh (p : list ev) (e : ev) : Prop :=
  forall c, uses e = Some c -> forall q e' r, p = q ++ e' :: r -> resets q e' -> ~ used c q.
End Spec.
