(** The subscribers that flatten an observable of observables: concurrent (concat, merge), switch
    and exhaust. No proofs in this file.

    An inner observable is a list of calls it makes while it is being subscribed to; what it does
    later is up to the history. The code's nested calls are a stack of commands: a command is a call,
    or the rest of a function after a call. *)
From Coq Require Import NArith.
From Verif Require Import Base SubscrModel LifeModel CombModel.
Set Implicit Arguments.

Inductive kind : Type :=
| Concurrent (limit : nat)   (* crates/rx_core_subscriber_higher_order_concurrent *)
| Switch                     (* crates/rx_core_subscriber_higher_order_switch *)
| Exhaust.                   (* crates/rx_core_subscriber_higher_order_exhaust *)

Section HigherOrder.
Variables A E : Type.
Notation call := (ncall A E).
(** The destination says after which calls it has closed itself; it does not call back. *)
Variable down : list call -> bool.
Variable k : kind.

(** What happens: an inner observable arrives, the outer observable errors, completes or is
    unsubscribed, an inner observable is subscribed to, makes a call that is not ignored, is
    unsubscribed; the destination is told something. *)
Inductive ev : Type :=
| TArrive (i : nat)
| TUp (c : call)
| TSub (i : nat)
| TIn (i : nat) (c : call)
| TEnd (i : nat)
| TOut (c : call).

(** [HigherOrderInnerSubscriber], crates/rx_core_subscriber_higher_order/src/
    higher_order_subscriber_inner.rs:14-28; whether there was one, and whether its two closures
    are still there. *)
Record inner : Type := mkInner {
  i_sub : bool; i_closed : bool; i_completed : bool; i_key : nat; i_oc : bool; i_ou : bool
}.
Definition no_inner : inner := mkInner false false false 0 false false.

Record st : Type := mkSt {
  s_queue : list (nat * list call);   (* the queue, concurrent_subscriber_queue.rs:8-14 *)
  s_nc : nat;                         (* non_completed_subscriptions *)
  s_nu : nat;                         (* non_unsubscribed_subscriptions *)
  s_up : N;                           (* upstream_subscriber_state *)
  s_down : N;                         (* downstream_subscriber_state *)
  s_slab : list (list nat);           (* inner_subscriptions of concurrent; the key is the index *)
  s_cur : option nat;                 (* inner_subscription of the other two *)
  s_torn : bool;                      (* outer_teardown is closed *)
  s_inner : nat -> inner;
  s_told : told A E;                  (* the shared destination *)
  s_busy : list nat;                  (* inner subscribers on the stack, called by their observable *)
  s_arrived : nat;                    (* identifies the inner observables *)
  s_tr : list ev
}.
Definition init : st :=
  mkSt [] 0 0 fresh fresh [] None false (fun _ => no_inner) t_new [] 0 [].

(** Commands. *)
Inductive cmd : Type :=
| KTell (c : call)                      (* a call on the shared destination *)
| KTear                                 (* outer_teardown.unsubscribe *)
| KTearEnd
| KAdvance                              (* subscribe_to_next_in_queue *)
| KCreate (i : nat) (l : list call)     (* the subscription to an inner observable *)
| KCall (i : nat) (c : call)            (* a call of an inner observable on its subscriber *)
| KAfterNext (i : nat)
| KInnerCompleted (i : nat)
| KUnsub (i : nat)                      (* the inner subscriber's unsubscribe *)
| KUnsubFrom (i : nat)                  (* the inner subscription's unsubscribe *)
| KOnUnsub (i : nat)                    (* on_unsubscribe *)
| KOnUnsub2
| KSubscribed (i : nat)                 (* after subscribe has returned *)
| KCheck                                (* switch_subscriber.rs:91-93 *)
| KFree (i : nat).                      (* the call of an inner observable has returned *)

(** Setters. *)
Section Set_.
Variable s : st.
Definition with_queue v := mkSt v (s_nc s) (s_nu s) (s_up s) (s_down s) (s_slab s) (s_cur s) (s_torn s) (s_inner s) (s_told s) (s_busy s) (s_arrived s) (s_tr s).
Definition with_counts nc nu := mkSt (s_queue s) nc nu (s_up s) (s_down s) (s_slab s) (s_cur s) (s_torn s) (s_inner s) (s_told s) (s_busy s) (s_arrived s) (s_tr s).
Definition with_up v := mkSt (s_queue s) (s_nc s) (s_nu s) v (s_down s) (s_slab s) (s_cur s) (s_torn s) (s_inner s) (s_told s) (s_busy s) (s_arrived s) (s_tr s).
Definition with_down v := mkSt (s_queue s) (s_nc s) (s_nu s) (s_up s) v (s_slab s) (s_cur s) (s_torn s) (s_inner s) (s_told s) (s_busy s) (s_arrived s) (s_tr s).
Definition with_slab v := mkSt (s_queue s) (s_nc s) (s_nu s) (s_up s) (s_down s) v (s_cur s) (s_torn s) (s_inner s) (s_told s) (s_busy s) (s_arrived s) (s_tr s).
Definition with_cur v := mkSt (s_queue s) (s_nc s) (s_nu s) (s_up s) (s_down s) (s_slab s) v (s_torn s) (s_inner s) (s_told s) (s_busy s) (s_arrived s) (s_tr s).
Definition with_torn v := mkSt (s_queue s) (s_nc s) (s_nu s) (s_up s) (s_down s) (s_slab s) (s_cur s) v (s_inner s) (s_told s) (s_busy s) (s_arrived s) (s_tr s).
Definition with_inner i v := mkSt (s_queue s) (s_nc s) (s_nu s) (s_up s) (s_down s) (s_slab s) (s_cur s) (s_torn s) (fun j => if j =? i then v else s_inner s j) (s_told s) (s_busy s) (s_arrived s) (s_tr s).
Definition with_told v := mkSt (s_queue s) (s_nc s) (s_nu s) (s_up s) (s_down s) (s_slab s) (s_cur s) (s_torn s) (s_inner s) v (s_busy s) (s_arrived s) (s_tr s).
Definition with_busy v := mkSt (s_queue s) (s_nc s) (s_nu s) (s_up s) (s_down s) (s_slab s) (s_cur s) (s_torn s) (s_inner s) (s_told s) v (s_arrived s) (s_tr s).
Definition with_arrived v := mkSt (s_queue s) (s_nc s) (s_nu s) (s_up s) (s_down s) (s_slab s) (s_cur s) (s_torn s) (s_inner s) (s_told s) (s_busy s) v (s_tr s).
Definition log e := mkSt (s_queue s) (s_nc s) (s_nu s) (s_up s) (s_down s) (s_slab s) (s_cur s) (s_torn s) (s_inner s) (s_told s) (s_busy s) (s_arrived s) (s_tr s ++ [e]).
End Set_.

(** higher_order_subscriber_state.rs:55-69. The conditions of switch and exhaust are those of
    [()], :11-27; they have no queue, so it is empty. *)
Definition queue_empty (s : st) : bool := match s_queue s with [] => true | _ => false end.
Definition can_downstream_complete (s : st) : bool :=                 (* :55-60 *)
  queue_empty s && (s_nc s =? 0) && is_completed (s_up s) && negb (is_closed (s_down s)).
Definition can_downstream_unsubscribe (s : st) : bool :=              (* :62-69 *)
  (queue_empty s && (s_nu s =? 0) && is_unsubscribed (s_up s) && negb (is_unsubscribed (s_down s)))
  || is_errored (s_up s) || is_closed (s_down s).

Definition is_torn (s : st) : bool :=
  match k with
  | Concurrent _ => t_shut (s_told s) || s_torn s                     (* concurrent_subscriber.rs:255-257 *)
  | _ => s_torn s                                                     (* switch :143-145, exhaust :126-128 *)
  end.

Definition set_completed (v : inner) := mkInner (i_sub v) (i_closed v) true (i_key v) false (i_ou v).
Definition set_closed (fire : bool) (v : inner) :=
  mkInner (i_sub v) true (i_completed v) (i_key v) (i_oc v) (i_ou v && negb fire).
Definition minus_one (n : nat) : option nat := match n with S m => Some m | O => None end.

(** higher_order_subscriber_inner.rs:138-154, with higher_order_subscriber_state.rs:90-110.
    [None]: a subtraction overflows. *)
Definition do_unsub (i : nat) (s : st) : option (st * list cmd) :=
  let v := s_inner s i in
  if i_closed v then Some (s, []) else
  let fire := negb (is_unsubscribed (s_down s)) && i_ou v in
  let d := if can_downstream_unsubscribe s then set_unsubscribe_if_not_already (s_down s) else s_down s in
  match minus_one (s_nu s), (if i_completed v then Some (s_nc s) else minus_one (s_nc s)) with
  | Some nu, Some nc =>
      Some (with_counts (with_down (log (with_inner s i (set_closed fire v)) (TEnd i)) d) nc nu,
            if fire then [KOnUnsub i] else [])
  | _, _ => None
  end.

(** What each command does, and the commands to be run next. [None] is a panic. *)
Definition step (c : cmd) (s : st) : option (st * list cmd) :=
  match c with
  | KTell m =>
      if t_shut (s_told s) then Some (s, []) else
      let s1 := log (with_told s (tell down m (s_told s))) (TOut m) in
      (* concurrent_subscriber.rs:62: the teardown of the destination *)
      Some (s1, match k with Concurrent _ => if t_shut (s_told s1) then [KTear] else [] | _ => [] end)
  | KTear =>
      if s_torn s then Some (s, []) else
      let s1 := with_torn s true in
      match k with
      | Concurrent _ =>                                               (* concurrent_subscriber.rs:48-60 *)
          Some (with_slab s1 [], map KUnsubFrom (concat (s_slab s1)) ++ [KTearEnd])
      | _ => Some (s1, [])
      end
  | KTearEnd => Some (with_up s (set_unsubscribe_if_not_already (s_up s)), [])
  | KAdvance =>                                                       (* concurrent_subscriber.rs:85-100 *)
      match s_queue s with
      | [] => Some (s, [])
      | (i, l) :: q => Some (with_counts (with_queue s q) (S (s_nc s)) (S (s_nu s)), [KCreate i l])
      end
  | KCreate i l =>                                                    (* concurrent_subscriber.rs:114-133, switch :70-84, exhaust :73-87 *)
      let key := match k with Concurrent _ => length (s_slab s) | _ => 0 end in
      let s1 := match k with Concurrent _ => with_slab s (s_slab s ++ [[]]) | _ => s end in
      Some (log (with_inner s1 i (mkInner true false false key true true)) (TSub i),
            map (KCall i) l ++ [KSubscribed i])
  | KCall i m =>
      if i_closed (s_inner s i) || negb (i_sub (s_inner s i)) then Some (s, []) else
      let s1 := log s (TIn i m) in
      match m with
      | Nxt a => Some (s1, [KTell (Nxt a); KAfterNext i])             (* higher_order_subscriber_inner.rs:69-81 *)
      | Err e =>                                                      (* :83-89, higher_order_subscriber_state.rs:117-120 *)
          match set_error (s_down s1) with
          | Some d => Some (with_down (with_queue s1 []) d, [KTell (Err e); KUnsub i])
          | None => None
          end
      | Cmp =>                                                        (* :91-108 *)
          Some (with_inner s1 i (set_completed (s_inner s1 i)),
                match k with Concurrent _ => if i_oc (s_inner s1 i) then [KAdvance] else [] | _ => [] end
                ++ [KInnerCompleted i; KUnsub i])
      | Uns => Some (s1, [KUnsub i])
      end
  | KAfterNext i =>                                                   (* :73-79 *)
      if t_shut (s_told s)
      then Some (with_down s (set_unsubscribe_if_not_already (s_down s)), [KUnsub i])
      else Some (s, [])
  | KInnerCompleted i =>                                              (* :98-104, higher_order_subscriber_state.rs:78-88 *)
      match s_nc s with
      | S nc =>
          let s1 := with_counts s nc (s_nu s) in
          if can_downstream_complete s1
          then match set_complete (s_down s1) with
               | Some d => Some (with_down s1 d, [KTell Cmp])
               | None => None
               end
          else Some (s1, [])
      | O => None
      end
  | KUnsub i => do_unsub i s
  | KUnsubFrom i => if existsb (Nat.eqb i) (s_busy s) then Some (s, []) else do_unsub i s
  | KOnUnsub i =>
      match k with
      | Concurrent limit =>                                           (* concurrent_subscriber.rs:146-169 *)
          let n := length (s_slab s) in
          let others := if i_key (s_inner s i) <? n then n - 1 else n in
          Some (s, (if (others =? limit - 1) && negb (is_closed (s_down s)) then [KAdvance] else [])
                   ++ [KOnUnsub2])
      | _ =>                                                          (* switch :75-83, exhaust :78-86 *)
          Some (s, if can_downstream_unsubscribe s then [KTear; KTell Uns] else [])
      end
  | KOnUnsub2 =>                                                      (* concurrent_subscriber.rs:171-180 *)
      Some (s, if can_downstream_unsubscribe s && negb (is_errored (s_up s)) && negb (is_errored (s_down s))
               then [KTell Uns; KTear] else [])
  | KSubscribed i =>
      if i_closed (s_inner s i) then Some (s, []) else
      match k with
      | Concurrent _ =>                                               (* concurrent_subscriber.rs:184-195 *)
          let key := i_key (s_inner s i) in
          match nth_error (s_slab s) key with
          | Some l => Some (with_slab s (firstn key (s_slab s) ++ (l ++ [i]) :: skipn (S key) (s_slab s)), [])
          | None => Some (s, [KUnsub i])
          end
      | _ => Some (with_cur s (Some i), [])                           (* switch :86-89, exhaust :89-92 *)
      end
  | KCheck =>
      if t_shut (s_told s) && negb (s_torn s)
      then Some (with_cur s None, [KTear; KTell Uns] ++ match s_cur s with Some i => [KUnsubFrom i] | None => [] end)
      else Some (s, [])
  | KFree i => Some (with_busy s (filter (fun j => negb (j =? i)) (s_busy s)), [])
  end.

(** What happens from outside. *)
Inductive act : Type :=
| AArrive (l : list call)     (* the outer observable emits an inner one *)
| AErr (e : E)                (* it errors *)
| ACmp
| AUns                        (* the subscription is unsubscribed *)
| AInner (i : nat) (c : call).   (* an inner observable makes a call, later *)

(** The unsubscribe of the three: concurrent_subscriber.rs:259-263, switch :147-155, exhaust
    :130-139. *)
Definition unsubscribe (s : st) : st * list cmd :=
  if is_torn s then (s, []) else
  match k with
  | Concurrent _ => (s, [KTell Uns])
  | Switch => (with_cur s None, [KTear; KTell Uns] ++ match s_cur s with Some i => [KUnsubFrom i] | None => [] end)
  | Exhaust => (s, match s_cur s with Some i => [KUnsubFrom i] | None => [] end ++ [KTear; KTell Uns])
  end.

Definition perform (a : act) (s : st) : option (st * list cmd) :=
  match a with
  | AArrive l =>
      if is_torn s then Some (s, []) else
      let i := s_arrived s in
      let s1 := log (with_arrived s (S i)) (TArrive i) in
      let more := with_counts s1 (S (s_nc s1)) (S (s_nu s1)) in
      match k with
      | Concurrent limit =>                                           (* concurrent_subscriber.rs:203-224 *)
          if s_nc s1 <? limit then Some (more, [KCreate i l])
          else Some (with_queue s1 (s_queue s1 ++ [(i, l)]), [])
      | Switch =>                                                     (* switch_subscriber.rs:55-95 *)
          Some (with_cur more None, match s_cur s with Some j => [KUnsubFrom j] | None => [] end ++ [KCreate i l; KCheck])
      | Exhaust =>                                                    (* exhaust_subscriber.rs:56-94 *)
          if s_nu s1 =? 0
          then Some (with_cur more None, match s_cur s with Some j => [KUnsubFrom j] | None => [] end ++ [KCreate i l])
          else Some (s1, [])
      end
  | AErr e =>                                                         (* concurrent :226-233, switch :97-104, exhaust :96-103 *)
      if is_torn s then Some (s, []) else
      let s1 := log s (TUp (Err e)) in
      match set_error (s_up s1) with                                  (* higher_order_subscriber_state.rs:112-115 *)
      | Some u =>
          let s2 := with_up (with_queue s1 []) u in
          match k with
          | Concurrent _ => Some (s2, [KTell (Err e); KTear])
          | Switch => Some (with_cur s2 None, [KTell (Err e); KTear; KTell Uns] ++ match s_cur s with Some i => [KUnsubFrom i] | None => [] end)
          | Exhaust => Some (s2, [KTell (Err e)] ++ match s_cur s with Some i => [KUnsubFrom i] | None => [] end ++ [KTear; KTell Uns])
          end
      | None => None
      end
  | ACmp =>                                                           (* concurrent :235-245, switch :106-116, exhaust :105-115 *)
      if is_torn s then Some (s, []) else
      let s1 := log s (TUp Cmp) in
      match set_complete (s_up s1) with                               (* higher_order_subscriber_state.rs:71-76 *)
      | Some u =>
          match set_unsubscribe u with
          | Some u' =>
              let s2 := with_up s1 u' in
              if can_downstream_complete s2 then
                match k with
                | Concurrent _ => Some (s2, [KTell Cmp; KTear])
                | Switch => Some (with_cur s2 None, [KTell Cmp; KTear; KTell Uns] ++ match s_cur s with Some i => [KUnsubFrom i] | None => [] end)
                | Exhaust => Some (s2, [KTell Cmp] ++ match s_cur s with Some i => [KUnsubFrom i] | None => [] end ++ [KTear; KTell Uns])
                end
              else Some (s2, [])
          | None => None
          end
      | None => None
      end
  | AUns => if is_torn s then Some (s, []) else Some (unsubscribe (log s (TUp Uns)))
  | AInner i c =>
      if i_closed (s_inner s i) || negb (i_sub (s_inner s i)) then Some (s, [])
      else Some (with_busy s (i :: s_busy s), [KCall i c; KFree i])
  end.

Inductive res : Type := Fine (s : st) | Panic | Hang.
Fixpoint drive (fuel : nat) (K : list cmd) (s : st) : res :=
  match K with
  | [] => Fine s
  | c :: K' =>
      match fuel with
      | O => Hang
      | S n => match step c s with Some (s', K1) => drive n (K1 ++ K') s' | None => Panic end
      end
  end.
Fixpoint flatten (fuel : nat) (h : list act) (s : st) : res :=
  match h with
  | [] => Fine s
  | a :: h' =>
      match perform a s with
      | Some (s', K) => match drive fuel K s' with Fine s1 => flatten fuel h' s1 | r => r end
      | None => Panic
      end
  end.
End HigherOrder.
Arguments TArrive {A E} i.
Arguments TSub {A E} i.
Arguments TEnd {A E} i.
Arguments AErr {A E} e.
Arguments ACmp {A E}.
Arguments AUns {A E}.
Arguments KTear {A E}.
Arguments KTearEnd {A E}.
Arguments KAdvance {A E}.
Arguments KAfterNext {A E} i.
Arguments KInnerCompleted {A E} i.
Arguments KUnsub {A E} i.
Arguments KUnsubFrom {A E} i.
Arguments KOnUnsub {A E} i.
Arguments KOnUnsub2 {A E}.
Arguments KSubscribed {A E} i.
Arguments KCheck {A E}.
Arguments KFree {A E} i.
Arguments Panic {A E}.
Arguments Hang {A E}.
Arguments init {A E}.
