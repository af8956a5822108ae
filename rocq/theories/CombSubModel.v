(** How zip, combine_latest, combine_changes and join subscribe to their two sources, hold them and
    let go of them. No proofs in this file.

    Four kinds of objects are involved. The subscription [S] that [subscribe] returns is a
    [SharedSubscription]; its finalizers are the subscriptions [s1] and [s2] of the sources. Each
    source has been given an [EitherSubscriber2], which owns a clone of the [SharedSubscriber]
    around the combining subscriber, which owns the destination. A finalizer of the destination
    owns a clone of [S].

    Assumed of a source: it makes its calls on its own subscriber, and when its subscription is
    unsubscribed or dropped it unsubscribes and drops that subscriber, at the latest when the call
    it is just making returns. Of the destination: it runs its finalizers when it closes. *)
From Verif Require Import Base SubscrModel LifeModel CombModel.
Set Implicit Arguments.

Inductive side : Type := One | Two.
Definition side_eqb (i j : side) : bool :=
  match i, j with One, One => true | Two, Two => true | _, _ => false end.

Section CombSub.
Variables A1 A2 E B St : Type.
Notation event := (either2 A1 A2 E).
Variable down : list (ncall B E) -> bool.
(** [next] of the combining subscriber, [start] its state at first. *)
Variable next : event -> St -> told B E -> option (St * told B E).
Variable start : St.

Definition src (e : event) : side := match e with On1 _ => One | On2 _ => Two end.
Definition uns_of (i : side) : event := match i with One => On1 Uns | Two => On2 Uns end.

Record cobs : Type := mkC {
  c_s : St;                          (* the combining subscriber *)
  c_w : told B E;                    (* the destination *)
  c_heard : list (bool * event);     (* all calls on the [SharedSubscriber], those deferred marked *)
  c_reg : bool;                      (* the destination has the finalizer that unsubscribes [S] *)
  c_closed : bool;                   (* [S] is closed *)
  c_held : list side;                (* the finalizers of [S] *)
  c_alive : side -> bool;            (* there is the subscriber that was given to the source *)
  c_offs : list side;                (* the subscriptions of the sources let go: unsubscribed, or dropped *)
  c_gone : bool;                     (* the combining subscriber and the destination were dropped *)
  c_handle : bool                    (* the caller has [S] *)
}.
Definition c_new : cobs := mkC start t_new [] false false [] (fun _ => false) [] false false.

Definition with_next (s : St) (w : told B E) (x : bool * event) (c : cobs) : cobs :=
  mkC s w (c_heard c ++ [x]) (c_reg c) (c_closed c) (c_held c) (c_alive c) (c_offs c) (c_gone c) (c_handle c).
Definition with_told (w : told B E) (c : cobs) : cobs :=
  mkC (c_s c) w (c_heard c) (c_reg c) (c_closed c) (c_held c) (c_alive c) (c_offs c) (c_gone c) (c_handle c).
Definition with_reg (b : bool) (c : cobs) : cobs :=
  mkC (c_s c) (c_w c) (c_heard c) b (c_closed c) (c_held c) (c_alive c) (c_offs c) (c_gone c) (c_handle c).
Definition with_held (b : bool) (l : list side) (c : cobs) : cobs :=
  mkC (c_s c) (c_w c) (c_heard c) (c_reg c) b l (c_alive c) (c_offs c) (c_gone c) (c_handle c).
Definition with_alive (i : side) (b : bool) (c : cobs) : cobs :=
  mkC (c_s c) (c_w c) (c_heard c) (c_reg c) (c_closed c) (c_held c)
      (fun j => if side_eqb i j then b else c_alive c j) (c_offs c) (c_gone c) (c_handle c).
Definition with_off (i : side) (c : cobs) : cobs :=
  mkC (c_s c) (c_w c) (c_heard c) (c_reg c) (c_closed c) (c_held c) (c_alive c) (c_offs c ++ [i]) (c_gone c) (c_handle c).
Definition with_gone (c : cobs) : cobs :=
  mkC (c_s c) (c_w c) (c_heard c) (c_reg c) (c_closed c) (c_held c) (c_alive c) (c_offs c) true (c_handle c).
Definition with_handle (b : bool) (c : cobs) : cobs :=
  mkC (c_s c) (c_w c) (c_heard c) (c_reg c) (c_closed c) (c_held c) (c_alive c) (c_offs c) (c_gone c) b.

Definition was_off (i : side) (c : cobs) : bool := existsb (side_eqb i) (c_offs c).
(** A source calls its subscriber only while it has it and was not told to let go of it. *)
Definition can (i : side) (c : cobs) : bool := c_alive c i && negb (was_off i c).

(** *** While the combining subscriber is in use: calls on the [SharedSubscriber] are put in its
    queue [q] (crates/rx_core_common/src/subscribers/subscriber_shared.rs:325-335, 368-375:
    [is_closed] says no, [try_lock] fails). *)

(** The subscription of source [i] is unsubscribed, then dropped. A source that is just calling
    ([busy]) lets go when its call returns, but may call [unsubscribe] at once ([prompt]). The
    others unsubscribe their subscriber and drop it; a subscriber that is dropped calls
    [unsubscribe] again if it does not look closed
    (crates/rx_core_macro_common/src/derive_subscription.rs:76-91), and it does not look closed,
    as the combining subscriber is locked. *)
Definition release_locked (busy : side) (prompt : bool) (cq : cobs * list event) (i : side) : cobs * list event :=
  let '(c, q) := cq in
  let c1 := with_off i c in
  if negb (can i c) then (c1, q)
  else if side_eqb busy i then (c1, if prompt then q ++ [uns_of i] else q)
  else (with_alive i false c1, q ++ [uns_of i; uns_of i]).

(** [S.unsubscribe()], subscription_shared.rs:192-209, subscription_data.rs:50-58. *)
Definition unsubscribe_locked busy prompt (cq : cobs * list event) : cobs * list event :=
  let '(c, q) := cq in
  if c_closed c then cq
  else fold_left (release_locked busy prompt) (c_held c) (with_held true [] c, q).

(** The destination has closed: its finalizer runs. Simplified: at the end of the call of the
    combining subscriber during which it closed; that call makes no difference between before and
    after, the queue is only looked at when it has returned. *)
Definition closing busy prompt (cq : cobs * list event) : cobs * list event :=
  let '(c, q) := cq in
  if t_shut (c_w c) && c_reg c then unsubscribe_locked busy prompt (with_reg false c, q) else cq.

(** What the destination may do while it is told something: make a source call its subscriber, or
    unsubscribe [S]. *)
Inductive inside : Type :=
| INCall (e : event)
| INUnsub.
Definition inside_step busy prompt (cq : cobs * list event) (x : inside) : cobs * list event :=
  match x with
  | INCall e => if can (src e) (fst cq) then (fst cq, snd cq ++ [e]) else cq
  | INUnsub => if c_handle (fst cq) then unsubscribe_locked busy prompt cq else cq
  end.

(** One call of the combining subscriber. *)
Definition one busy prompt (d : bool) (e : event) (ins : list inside) (cq : cobs * list event) : option (cobs * list event) :=
  let '(c, q) := cq in
  match next e (c_s c) (c_w c) with
  | None => None
  | Some (s', w') =>
      Some (closing busy prompt
        (fold_left (inside_step busy prompt) ins (with_next s' w' (d, e) c, q)))
  end.
Fixpoint ones busy prompt (l : list event) (cq : cobs * list event) : option (cobs * list event) :=
  match l with
  | [] => Some cq
  | e :: r => match one busy prompt true e [] cq with Some cq' => ones busy prompt r cq' | None => None end
  end.
(** [apply_notification_queue], subscriber_shared.rs:202-246. It panics when [n], the number of
    rounds left, is used up. *)
Fixpoint rounds (n : nat) busy prompt (cq : cobs * list event) : option (cobs * list event) :=
  match n with
  | 0 => None
  | S n' =>
      match snd cq with
      | [] => Some cq
      | l => match ones busy prompt l (fst cq, []) with Some cq' => rounds n' busy prompt cq' | None => None end
      end
  end.
(** subscriber_shared.rs:10 *)
Definition max_rounds : nat := 10.

(** *** [next] of the [SharedSubscriber] when it is not in use, subscriber_shared.rs:325-335. It
    drops the call, and those that sources make at the same time, if the destination is closed. *)
Definition ignored (c : cobs) (x : inside) : cobs :=
  match x with
  | INCall e => if can (src e) c then with_next (c_s c) (c_w c) (false, e) c else c
  | INUnsub => c
  end.
Definition shared_next (busy : side) (prompt : bool) (e : event) (ins : list inside) (c : cobs) : option cobs :=
  if t_shut (c_w c) then Some (fold_left ignored ins (with_next (c_s c) (c_w c) (false, e) c))
  else match one busy prompt false e ins (c, []) with
       | None => None
       | Some cq => match rounds max_rounds busy prompt cq with Some (c', _) => Some c' | None => None end
       end.

(** *** Nobody owns the combining subscriber any more: it is dropped, and the destination with it,
    which unsubscribes unless it is closed (derive_subscription.rs:76-91). Both sources have let go
    by now. *)
Definition free (c : cobs) : cobs :=
  if c_alive c One || c_alive c Two || c_gone c then c
  else let c1 := with_gone c in
       if t_shut (c_w c1) then c1
       else let c2 := with_told (tell down Uns (c_w c1)) c1 in
            fst (closing One false (c2, [])).

(** The subscriber of source [i] is dropped, derive_subscription.rs:76-91. [last]: no one else can
    own the combining subscriber. *)
Definition drop_either (last : bool) (i : side) (c : cobs) : option cobs :=
  if negb (c_alive c i) then Some c
  else let c0 := with_alive i false c in
       match (if t_shut (c_w c) then Some c0 else shared_next i false (uns_of i) [] c0) with
       | None => None
       | Some c1 => Some (if last then free c1 else c1)
       end.

(** The subscription of source [i] is unsubscribed, or dropped, while the combining subscriber is
    not in use. *)
Definition release (last : bool) (i : side) (c : cobs) : option cobs :=
  if negb (can i c) then Some (with_off i c)
  else match shared_next i false (uns_of i) [] (with_off i c) with
       | None => None
       | Some c1 => drop_either last i c1
       end.
Fixpoint releases (l : list side) (c : cobs) : option cobs :=
  match l with
  | [] => Some c
  | i :: r => match release true i c with Some c' => releases r c' | None => None end
  end.

(** *** What can happen after [subscribe] has returned. *)
Inductive cevent : Type :=
| CEmit (e : event) (ins : list inside) (prompt : bool)   (* a source calls its subscriber *)
| CDrop (i : side)                                        (* a source drops its subscriber *)
| CUnsub                                                  (* the caller unsubscribes [S] *)
| CForget.                                                (* the caller drops [S] *)

(** A source that has its subscriber calls it. *)
Definition emit1 (last : bool) (e : event) (ins : list inside) (prompt : bool) (c : cobs) : option cobs :=
  match shared_next (src e) prompt e ins c with
  | None => None
  | Some c1 => if was_off (src e) c1 then drop_either last (src e) c1 else Some c1
  end.
(** If it does not have it there is no call, and what would have been called during it is called
    by itself. *)
Fixpoint meanwhile (last : bool) (ins : list inside) (c : cobs) : option cobs :=
  match ins with
  | [] => Some c
  | INCall e :: r =>
      match (if can (src e) c then emit1 last e [] false c else Some c) with
      | Some c' => meanwhile last r c'
      | None => None
      end
  | INUnsub :: r => meanwhile last r c
  end.
Definition emit (last : bool) (e : event) (ins : list inside) (prompt : bool) (c : cobs) : option cobs :=
  if can (src e) c then emit1 last e ins prompt c else meanwhile last ins c.

Definition unsubscribe (c : cobs) : option cobs :=
  if c_closed c then Some c else releases (c_held c) (with_held true [] c).

Definition cstep (x : cevent) (c : cobs) : option cobs :=
  match x with
  | CEmit e ins prompt => emit true e ins prompt c
  | CDrop i => drop_either true i c
  | CUnsub => if c_handle c then unsubscribe c else Some c
  | CForget =>
      (* subscription_shared.rs:212-217, subscription_data.rs:84-90: the data are dropped, and
         unsubscribed, with the last clone; the destination's finalizer may have another *)
      let c1 := with_handle false c in
      if negb (c_handle c) || c_reg c then Some c1 else unsubscribe c1
  end.

(** *** [subscribe], e.g. zip_observable.rs:64-98. [b_calls] is what is called while a
    source is being subscribed to, [b_over] whether it has dropped its subscriber when it returns, and
    [b_closed] whether the subscription it returns is closed already, which is then dropped
    (crates/rx_core_common/src/subscriptions/teardown.rs:130-144). *)
Record source : Type := mkB {
  b_calls : list (event * list inside * bool);
  b_over : bool;
  b_closed : bool
}.
Fixpoint emits (l : list (event * list inside * bool)) (c : cobs) : option cobs :=
  match l with
  | [] => Some c
  | (e, ins, prompt) :: r =>
      match emit false e ins prompt c with Some c' => emits r c' | None => None end
  end.
Definition bring (i : side) (b : source) (c : cobs) : option cobs :=
  match emits (b_calls b) (with_alive i true c) with
  | Some c1 => if b_over b then drop_either false i c1 else Some c1
  | None => None
  end.
(** [subscription.add_teardown(s_i.into())], subscription_data.rs:62-70. *)
Definition hold (i : side) (b : source) (c : cobs) : option cobs :=
  if b_closed b || c_closed c then release false i c else Some (with_held false (c_held c ++ [i]) c).
Definition subscribe (b1 b2 : source) : option cobs :=
  match bring One b1 c_new with
  | None => None
  | Some c1 =>
      match bring Two b2 c1 with
      | None => None
      | Some c2 =>
          (* the destination runs the finalizer at once if it is closed *)
          let c3 := if t_shut (c_w c2) then with_held true [] c2 else with_reg true c2 in
          match hold One b1 c3 with
          | None => None
          | Some c4 =>
              match hold Two b2 c4 with
              | None => None
              | Some c5 => Some (free (with_handle true c5))
              end
          end
      end
  end.
Fixpoint csteps (l : list cevent) (c : cobs) : option cobs :=
  match l with
  | [] => Some c
  | x :: r => match cstep x c with Some c' => csteps r c' | None => None end
  end.
Definition combined (b1 b2 : source) (l : list cevent) : option cobs :=
  match subscribe b1 b2 with Some c => csteps l c | None => None end.
End CombSub.
Arguments INCall {A1 A2 E} e.
Arguments INUnsub {A1 A2 E}.
Arguments CEmit {A1 A2 E} e ins prompt.
Arguments CDrop {A1 A2 E} i.
Arguments CUnsub {A1 A2 E}.
Arguments CForget {A1 A2 E}.
