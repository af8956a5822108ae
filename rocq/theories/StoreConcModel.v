(** The behavior, replay and async subjects used by any number of threads. No proofs in this file.

    crates/rx_core_subject_behavior/src/behavior_subject.rs, rx_core_subject_replay/src/replay_subject.rs
    and rx_core_subject_async/src/async_subject.rs. Each is a publish subject (PubConcModel.v) next to
    a cell under a mutex of its own, which is only held for an instant. An operation is carried out in
    several steps: those on the cell, and the operations of the publish subject with all their steps.
    Simplified as there; moreover what a destination is told before it is handed to the publish subject
    (the greeting) does not make it close itself, and the reducer of the async subject has no state. *)
From Verif Require Import Base SubscrModel PubConcModel.
Set Implicit Arguments.

Section Store.
Variables V E : Type.
(** The cell, how a value is stored, and what is replayed from it. *)
Variable B : Type.
Variable store : B -> V -> B.
Variable replay : B -> list V.

Inductive micro : Type :=
| MStore (v : V)
| MFeed (o : op V E)                (* an operation of the publish subject *)
| MIsErr (s : nat)                  (* is it errored? *)
| MGreet (s : nat)                  (* reads the cell and tells s *)
| MIsClosed (s : nat)               (* is it closed? *)
| MRead (s : nat)                   (* reads the cell *)
| MCheck (s : nat) (l : list V)     (* is it errored? If not, tells s *)
| MLast.                            (* reads the cell to push what is there *)

Record bst : Type := mkB {
  b_w : st V E;
  b_cell : B;
  b_greet : nat -> option (list V);  (* what a destination was told before it was handed on *)
  b_log : list (item V);             (* not in the code: what was stored, and by which thread *)
  b_rest : list (list micro)         (* what the threads have to do after the operation they are in *)
}.
Definition with_w x b := mkB x (b_cell b) (b_greet b) (b_log b) (b_rest b).
Definition with_greet x b := mkB (b_w b) (b_cell b) x (b_log b) (b_rest b).
Definition with_rest x b := mkB (b_w b) (b_cell b) (b_greet b) (b_log b) x.

(** A destination subscribes once. *)
Definition greet (s : nat) (l : list V) (b : bst) : bst :=
  match b_greet b s with
  | Some _ => b
  | None => if v_used (b_w b) s then b else with_greet (upd (b_greet b) s (Some l)) b
  end.
Definition feed (t : nat) (o : op V E) (w : st V E) : st V E := with_thr (set_nth t [KOp o] (v_thr w)) w.
Definition small (t : nat) (m : micro) (b : bst) : list micro * bst :=
  match m with
  | MStore v => ([], mkB (b_w b) (store (b_cell b) v) (b_greet b) (b_log b ++ [(t, v)]) (b_rest b))
  | MFeed o => ([], with_w (feed t o (b_w b)) b)
  | MIsErr s => (if seen_error (b_w b) then [] else [MGreet s], b)
  | MGreet s => ([], greet s (replay (b_cell b)) b)
  | MIsClosed s => (if is_closed (b_w b) then [MRead s] else [], b)
  | MRead s => ([MCheck s (replay (b_cell b))], b)
  | MCheck s l => ([], if seen_error (b_w b) then b else greet s l b)
  | MLast => (map (fun v => MFeed (ONext v)) (replay (b_cell b)), b)
  end.

(** What an operation consists of. *)
Definition behaving (o : op V E) : list micro :=
  match o with
  | ONext v => [MStore v; MFeed (ONext v)]          (* behavior_subject.rs:64-67, replay_subject.rs:64-68 *)
  | OSub s => [MIsErr s; MFeed (OSub s)]            (* :90-105, :91-109 *)
  | _ => [MFeed o]                                  (* :69-77, :70-78 and the derived unsubscribe *)
  end.
Definition asynchronous (o : op V E) : list micro :=
  match o with
  | ONext v => [MStore v]                           (* async_subject.rs:87-97 *)
  | OCmp => [MLast; MFeed OCmp]                     (* :104-113 *)
  | OSub s => [MIsClosed s; MFeed (OSub s)]         (* :127-152 *)
  | _ => [MFeed o]
  end.

Variable shuts : nat -> list (ncall (item V) E) -> bool.
(** Whether [t] is in the midst of an operation of the publish subject. *)
Definition inside (t : nat) (w : st V E) : bool :=
  match v_lock w with Held u _ _ => u =? t | _ => false end ||
  match nth t (v_thr w) [] with [] => false | _ => true end.
(** One step of thread [t]; a thread that panics is gone. *)
Definition bstep (b : bst) (tk : nat * nat) : bst :=
  let (t, k) := tk in
  if inside t (b_w b) then
    let w := step shuts (b_w b) tk in
    let gone := match v_lock (b_w b), v_lock w with Held _ _ _, Poisoned => true | _, _ => false end in
    with_w w (with_rest (if gone then set_nth t [] (b_rest b) else b_rest b) b)
  else
    match nth t (b_rest b) [] with
    | [] => b
    | m :: ms => let '(ms', b') := small t m b in with_rest (set_nth t (ms' ++ ms) (b_rest b)) b'
    end.
Definition brun (ts : list (nat * nat)) (b : bst) : bst := fold_left bstep ts b.

Definition bstart (cell : B) (tr : op V E -> list micro) (progs : list (list (op V E))) : bst :=
  mkB (start (map (fun _ => []) progs)) cell (fun _ => None) [] (map (flat_map tr) progs).
End Store.

(** The cells. *)
Section Cells.
Variables V E : Type.
Variable shuts : nat -> list (ncall (item V) E) -> bool.
(** behavior_subject.rs:43-48 *)
Definition behavior (v : V) (progs : list (list (op V E))) : bst V E V := bstart v (@behaving V E) progs.
Definition behavior_run := brun (fun _ v => v) (fun v : V => [v]) shuts.
(** replay_subject.rs:26: a ring buffer of [cap] values. *)
Definition ring (cap : nat) (l : list V) (v : V) : list V := let l' := l ++ [v] in skipn (length l' - cap) l'.
Definition replaying (progs : list (list (op V E))) : bst V E (list V) := bstart [] (@behaving V E) progs.
Definition replay_run (cap : nat) := brun (ring cap) (fun l : list V => l) shuts.
(** async_subject.rs:42 *)
Definition reduce (f : V -> V -> V) (o : option V) (v : V) : option V :=
  match o with Some x => Some (f x v) | None => Some v end.
Definition async (progs : list (list (op V E))) : bst V E (option V) := bstart None (@asynchronous V E) progs.
Definition async_run (f : V -> V -> V) := brun (reduce f) (fun o : option V => match o with Some v => [v] | None => [] end) shuts.
End Cells.
