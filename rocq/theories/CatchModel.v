(** The catch operator. No proofs in this file.

    The replacement of an error is the list of calls it makes while it is being subscribed to; what
    it does later is up to the history. The destination is a function of what it was told and does
    not call back, so the nested calls of the code are nested functions. *)
From Coq Require Import NArith.
From Verif Require Import Base SubscrModel LifeModel CombModel.
Set Implicit Arguments.

Section Catch.
Variables A E1 E2 : Type.                     (* values; errors before and after *)
Notation call := (ncall A E2).
Variable down : list call -> bool.
Variable mapper : E1 -> list call.

(** crates/rx_core_operator_catch/src/catch_subscriber.rs:15-31, with the state of
    crates/rx_core_subscriber_higher_order/src/higher_order_subscriber_state.rs:33-41 and the one
    inner subscriber, higher_order_subscriber_inner.rs:14-28. *)
Record st : Type := mkSt {
  c_told : told A E2;                         (* shared_destination *)
  c_up : N; c_down : N; c_nc : nat; c_nu : nat;   (* state *)
  c_mapper : bool;                            (* error_mapper is there *)
  c_torn : bool;                              (* outer_teardown is closed *)
  c_stored : bool;                            (* inner_subscription is there *)
  c_sub : bool; c_closed : bool; c_completed : bool   (* the inner subscriber *)
}.
Definition init : st := mkSt t_new fresh fresh 0 0 true false false false false false.

Section Set_.
Variable s : st.
Definition with_told v := mkSt v (c_up s) (c_down s) (c_nc s) (c_nu s) (c_mapper s) (c_torn s) (c_stored s) (c_sub s) (c_closed s) (c_completed s).
Definition with_up v := mkSt (c_told s) v (c_down s) (c_nc s) (c_nu s) (c_mapper s) (c_torn s) (c_stored s) (c_sub s) (c_closed s) (c_completed s).
Definition with_down v := mkSt (c_told s) (c_up s) v (c_nc s) (c_nu s) (c_mapper s) (c_torn s) (c_stored s) (c_sub s) (c_closed s) (c_completed s).
Definition with_counts nc nu := mkSt (c_told s) (c_up s) (c_down s) nc nu (c_mapper s) (c_torn s) (c_stored s) (c_sub s) (c_closed s) (c_completed s).
Definition with_mapper v := mkSt (c_told s) (c_up s) (c_down s) (c_nc s) (c_nu s) v (c_torn s) (c_stored s) (c_sub s) (c_closed s) (c_completed s).
Definition with_torn v := mkSt (c_told s) (c_up s) (c_down s) (c_nc s) (c_nu s) (c_mapper s) v (c_stored s) (c_sub s) (c_closed s) (c_completed s).
Definition with_stored v := mkSt (c_told s) (c_up s) (c_down s) (c_nc s) (c_nu s) (c_mapper s) (c_torn s) v (c_sub s) (c_closed s) (c_completed s).
Definition with_inner sub closed completed := mkSt (c_told s) (c_up s) (c_down s) (c_nc s) (c_nu s) (c_mapper s) (c_torn s) (c_stored s) sub closed completed.
End Set_.

(** A call on the shared destination; a closed one ignores it. *)
Definition tell_d (c : call) (s : st) : st :=
  if t_shut (c_told s) then s else with_told s (tell down c (c_told s)).

(** higher_order_subscriber_state.rs:55-69. *)
Definition can_complete (s : st) : bool :=
  (c_nc s =? 0) && is_completed (c_up s) && negb (is_closed (c_down s)).
Definition can_unsubscribe (s : st) : bool :=
  ((c_nu s =? 0) && is_unsubscribed (c_up s) && negb (is_unsubscribed (c_down s)))
  || is_errored (c_up s) || is_closed (c_down s).

(** higher_order_subscriber_inner.rs:138-154, with higher_order_subscriber_state.rs:90-110 and the
    closure of catch_subscriber.rs:95-103. [None]: a subtraction overflows. *)
Definition inner_unsubscribe (s : st) : option st :=
  if c_closed s then Some s else
  let fire := negb (is_unsubscribed (c_down s)) in
  let d := if can_unsubscribe s then set_unsubscribe_if_not_already (c_down s) else c_down s in
  match c_nu s, (if c_completed s then Some (c_nc s) else match c_nc s with S n => Some n | O => None end) with
  | S nu, Some nc =>
      let s1 := with_counts (with_down (with_inner s (c_sub s) true (c_completed s)) d) nc nu in
      Some (if fire && can_unsubscribe s1 then tell_d Uns (with_torn s1 true) else s1)
  | _, _ => None
  end.
(** A call of the replacement, higher_order_subscriber_inner.rs:69-108. *)
Definition inner_call (c : call) (s : st) : option st :=
  if negb (c_sub s) || c_closed s then Some s else
  match c with
  | Nxt a =>
      let s1 := tell_d (Nxt a) s in
      if t_shut (c_told s1)
      then inner_unsubscribe (with_down s1 (set_unsubscribe_if_not_already (c_down s1)))
      else Some s1
  | Err e =>
      match set_error (c_down s) with
      | Some d => inner_unsubscribe (tell_d (Err e) (with_down s d))
      | None => None
      end
  | Cmp =>
      match c_nc s with
      | S nc =>
          let s1 := with_counts (with_inner s (c_sub s) (c_closed s) true) nc (c_nu s) in
          if can_complete s1
          then match set_complete (c_down s1) with
               | Some d => inner_unsubscribe (tell_d Cmp (with_down s1 d))
               | None => None
               end
          else inner_unsubscribe s1
      | O => None
      end
  | Uns => inner_unsubscribe s
  end.
Fixpoint inner_calls (l : list call) (s : st) : option st :=
  match l with
  | [] => Some s
  | c :: r => match inner_call c s with Some s1 => inner_calls r s1 | None => None end
  end.

(** catch_subscriber.rs:175-183. *)
Definition unsubscribe (s : st) : option st :=
  if c_torn s then Some s else
  match (if c_stored s then inner_unsubscribe (with_stored s false) else Some s) with
  | Some s1 => Some (tell_d Uns (with_torn s1 true))
  | None => None
  end.

(** A call of the source. *)
Definition source_call (c : ncall A E1) (s : st) : option st :=
  match c with
  | Nxt a =>                                                          (* catch_subscriber.rs:64-70 *)
      let s1 := tell_d (Nxt a) s in
      if t_shut (c_told s1) then unsubscribe s1 else Some s1
  | Err e =>                                                          (* :73-126 *)
      if c_torn s || negb (c_mapper s) then Some s else
      let s1 := with_counts (with_mapper s false) (S (c_nc s)) (S (c_nu s)) in
      match (if c_stored s1 then inner_unsubscribe (with_stored s1 false) else Some s1) with
      | Some s2 =>
          match set_complete (c_up s2) with
          | Some u1 =>
              match set_unsubscribe u1 with
              | Some u2 =>
                  match inner_calls (mapper e) (with_inner (with_up s2 u2) true false false) with
                  | Some s3 =>
                      let s4 := if c_closed s3 then s3 else with_stored s3 true in
                      if t_shut (c_told s4) then unsubscribe s4 else Some s4
                  | None => None
                  end
              | None => None
              end
          | None => None
          end
      | None => None
      end
  | Cmp =>                                                            (* :129-139 *)
      if c_torn s then Some s else
      match set_complete (c_up s) with                                (* higher_order_subscriber_state.rs:71-76 *)
      | Some u1 =>
          match set_unsubscribe u1 with
          | Some u2 =>
              let s1 := with_up s u2 in
              if can_complete s1 then unsubscribe (tell_d Cmp s1) else Some s1
          | None => None
          end
      | None => None
      end
  | Uns => unsubscribe s
  end.

Inductive act : Type := Src (c : ncall A E1) | Inn (c : call).
Definition perform (a : act) (s : st) : option st :=
  match a with Src c => source_call c s | Inn c => inner_call c s end.
Fixpoint run (h : list act) (s : st) : option st :=
  match h with
  | [] => Some s
  | a :: r => match perform a s with Some s1 => run r s1 | None => None end
  end.
End Catch.
Arguments Src {A E1 E2} c.
Arguments Inn {A E1 E2} c.
