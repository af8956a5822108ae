(** The iterator that counts how it is used, from the testing crate:
    crates/rx_core_testing/src/tracked_iterator.rs. No proofs in this file.
    Counters are unbounded (usize in the code). *)
From Verif Require Import Base SubscrModel.
Set Implicit Arguments.

(** One call of the wrapped iterator: an item, the end (after which it may go on), or a panic. *)
Inductive ires (A : Type) : Type := IItem (a : A) | IEnd | IPanic.
Arguments IItem {A} a. Arguments IEnd {A}. Arguments IPanic {A}.

(** :146-150 [IteratorInstanceTrackingData] *)
Record cell : Type := mkCell { next_count : nat; finished : bool }.

(** What a test can do with a [TrackedIterator] and its tracking data: iterate over a clone of it
    (:71-82), take from the [x]-th iteration so begun (:100-112), ask the two questions (:53-61). *)
Inductive top : Type := TInto | TNext (x : nat) | TRead (i : nat) | TFin (i : nat).
(** [TVoid]: there is no such iteration, which cannot be written in Rust. *)
Inductive tout (A : Type) : Type := TMade | TGot (r : option A) | TNum (n : nat) | TBool (b : bool) | TPanic | TVoid.
Arguments TMade {A}. Arguments TGot {A} r. Arguments TNum {A} n. Arguments TBool {A} b. Arguments TPanic {A}. Arguments TVoid {A}.

(** :115-119 [IteratorTrackingData], the iterations there are (:85-92; each has its instance id and the
    wrapped iterator) and whether the lock is poisoned: every [read().unwrap()] and [write().unwrap()]
    panics from then on. *)
Record tracked (S : Type) : Type := mkTracked {
  next_instance_id : nat;
  instances : list (nat * cell);
  iterations : list (nat * S);
  poisoned : bool
}.
Arguments mkTracked {S}.

(** The map from instance id to data. *)
Fixpoint get_cell (i : nat) (m : list (nat * cell)) : option cell :=
  match m with [] => None | (j, c) :: r => if i =? j then Some c else get_cell i r end.
Fixpoint put_cell (i : nat) (c : cell) (m : list (nat * cell)) : list (nat * cell) :=
  match m with [] => [(i, c)] | (j, d) :: r => if i =? j then (i, c) :: r else (j, d) :: put_cell i c r end.
Fixpoint put_at {T} (x : nat) (a : T) (l : list T) : list T :=
  match l with [] => [] | b :: r => match x with 0 => a :: r | S y => b :: put_at y a r end end.

Section Tracked.
  Context {A S : Type}.
  Variable it : S -> ires A * S.
  Variable s0 : S.

  Definition fresh_tracked : tracked S := mkTracked 0 [] [] false.   (* :22-27 *)

  (** :122-128 [create_next_instance], :71-82 [into_iter] *)
  Definition into_iter (w : tracked S) : tracked S * tout A :=
    if poisoned w then (w, TPanic)
    else (mkTracked (Datatypes.S (next_instance_id w)) (put_cell (next_instance_id w) (mkCell 0 false) (instances w))
                    (iterations w ++ [(next_instance_id w, s0)]) false, TMade).

  (** :100-112 [next]: the write lock is held while the wrapped iterator runs, so that a panic of it, or
      of the lookup (:136-143), poisons the lock. *)
  Definition tnext (x : nat) (w : tracked S) : tracked S * tout A :=
    match nth_error (iterations w) x with
    | None => (w, TVoid)
    | Some (i, s) =>
        if poisoned w then (w, TPanic)
        else
          let '(r, s') := it s in
          let its := put_at x (i, s') (iterations w) in
          let broken := (mkTracked (next_instance_id w) (instances w) its true, TPanic) in
          match r with
          | IPanic => broken
          | IItem a => match get_cell i (instances w) with
                       | Some c => (mkTracked (next_instance_id w) (put_cell i (mkCell (Datatypes.S (next_count c)) (finished c)) (instances w)) its false, TGot (Some a))
                       | None => broken
                       end
          | IEnd => match get_cell i (instances w) with
                    | Some c => (mkTracked (next_instance_id w) (put_cell i (mkCell (next_count c) true) (instances w)) its false, TGot None)
                    | None => broken
                    end
          end
    end.

  (** :53-61 with :130-134 [get_instance_data]; the read lock is not poisoned by the panic. *)
  Definition read_next_count (i : nat) (w : tracked S) : tout A :=
    if poisoned w then TPanic else match get_cell i (instances w) with Some c => TNum (next_count c) | None => TPanic end.
  Definition is_finished (i : nat) (w : tracked S) : tout A :=
    if poisoned w then TPanic else match get_cell i (instances w) with Some c => TBool (finished c) | None => TPanic end.

  Definition tdo (o : top) (w : tracked S) : tracked S * tout A :=
    match o with
    | TInto => into_iter w
    | TNext x => tnext x w
    | TRead i => (w, read_next_count i w)
    | TFin i => (w, is_finished i w)
    end.
  Fixpoint texec (ops : list top) (w : tracked S) : tracked S * list (top * tout A) :=
    match ops with
    | [] => (w, [])
    | o :: r => let '(w1, a) := tdo o w in let '(w2, h) := texec r w1 in (w2, (o, a) :: h)
    end.

  (** crates/rx_core_observable_iterator/src/iterator_observable.rs:46-52 on such an iterator: the loop of
      SourceModel.v's [iter_loop], taking from the [x]-th iteration; None if it has not ended within
      [fuel] rounds or panics. *)
  Context {X E : Type}.
  Variable D : subscriber X A E.
  Fixpoint tracked_loop (fuel x : nat) (w : tracked S) (d : st D) : option (tracked S * st D * list (ev X)) :=
    match fuel with
    | 0 => None
    | Datatypes.S fuel' =>
        match tnext x w with
        | (w1, TGot None) => Some (w1, d, [])
        | (w1, TGot (Some a)) =>
            if closed D d then Some (w1, d, [])
            else let '(d1, e1) := step D d (CN (Nxt a)) in
                 match tracked_loop fuel' x w1 d1 with
                 | Some (w2, d2, e2) => Some (w2, d2, e1 ++ e2)
                 | None => None
                 end
        | _ => None
        end
    end.
End Tracked.
