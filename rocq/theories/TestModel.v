(** The helpers every test of the repository is written with (crates/rx_core_testing): the
    notification collector, the mock observer, the destination of the harness, and its final
    assertion. Panics of assertions are [false]. Left out: locks, printing. No proofs in this
    file. *)
From Verif Require Import Base SubscrModel OpsModel.
Set Implicit Arguments.

Section Collector.
Variables A E : Type.
Notation note := (ncall A E).                       (* SubscriberNotification *)
Variable eqb : note -> note -> bool.                (* PartialEq *)

(** src/notification_collector.rs:47-56 *)
Record collector : Type := mkC { c_before : list note; c_after : list note; c_closed : bool }.
Definition c_new : collector := mkC [] [] false.    (* :431-443 *)

Definition is_uns (n : note) : bool := match n with Uns => true | _ => false end.
Definition is_next (n : note) : bool := match n with Nxt _ => true | _ => false end.
Definition is_err (n : note) : bool := match n with Err _ => true | _ => false end.
Definition is_cmp (n : note) : bool := match n with Cmp => true | _ => false end.

Definition push (c : collector) (n : note) : collector :=            (* :75-85 *)
  if c_closed c then mkC (c_before c) (c_after c ++ [n]) true
  else mkC (c_before c ++ [n]) (c_after c) (is_uns n).
Definition collect (l : list note) : collector := fold_left push l c_new.

Definition c_is_empty (c : collector) : bool :=                      (* :87-89 *)
  match c_before c, c_after c with [], [] => true | _, _ => false end.
Definition c_len (c : collector) : nat := length (c_before c) + length (c_after c).   (* :91-93 *)
Definition try_nth (c : collector) (n : nat) : option note :=        (* :116-123 *)
  if n <? length (c_before c) then nth_error (c_before c) n else nth_error (c_after c) (n - length (c_before c)).
Definition nothing_after_closed (c : collector) : bool :=            (* :138-141 *)
  match c_after c with [] => true | _ => false end.
Definition all_notes (c : collector) : list note := c_before c ++ c_after c.          (* :146-155 *)
Definition all_values (c : collector) : list A :=                    (* :160-174 *)
  flat_map (fun n => match n with Nxt a => [a] | _ => [] end) (all_notes c).
Definition all_errors (c : collector) : list E :=                    (* :179-193 *)
  flat_map (fun n => match n with Err e => [e] | _ => [] end) (all_notes c).
(** :198-305, for each of the four kinds. *)
Definition count_before (k : note -> bool) (c : collector) : nat := length (filter k (c_before c)).
Definition count_after (k : note -> bool) (c : collector) : nat := length (filter k (c_after c)).
Definition count_all (k : note -> bool) (c : collector) : nat := count_before k c + count_after k c.

Definition is_none {Y} (o : option Y) : bool := match o with None => true | Some _ => false end.
Definition assert_nth_is_last (c : collector) (n : nat) : bool :=    (* :330-353 *)
  negb (is_none (try_nth c n)) && is_none (try_nth c (n + 1)).
Definition assert_nth (c : collector) (n : nat) (x : note) : bool := (* :356-374 *)
  match try_nth c n with Some y => eqb y x | None => false end.
Definition assert_last (c : collector) (x : note) : bool :=          (* :379-402 *)
  (0 <? c_len c) && (assert_nth c (c_len c - 1) x && is_none (try_nth c (c_len c))).
Fixpoint assert_all (c : collector) (i : nat) (xs : list note) : bool :=
  match xs with [] => true | x :: r => assert_nth c i x && assert_all c (i + 1) r end.
Definition assert_notifications (c : collector) (offset : nat) (xs : list note) (no_more : bool) : bool :=   (* :408-430 *)
  assert_all c offset xs && (if no_more then is_none (try_nth c (offset + length xs)) else true).
End Collector.
Arguments c_new {A E}.
Arguments is_uns {A E} n.
Arguments is_next {A E} n.
Arguments is_err {A E} n.
Arguments is_cmp {A E} n.

(** ** MockObserver, src/mock_observer.rs: a subscriber that records all it is told; its
    [SharedSubscription] is only for teardowns and [is_closed]. *)
Definition mock_step {A E} (d : sdata) (c : call A E) : sdata * list (ev (ncall A E)) :=
  match c with
  | CN (Nxt a) => (d, [EObs (Nxt a)])                                          (* :53-57 *)
  | CN (Err e) => let '(d', w) := sd_unsubscribe d in (d', EObs (Err e) :: w)  (* :59-66 *)
  | CN Cmp => let '(d', w) := sd_unsubscribe d in (d', EObs Cmp :: w)          (* :68-75 *)
  | CN Uns => let '(d', w) := sd_unsubscribe d in (d', w ++ [EObs Uns])        (* :87-96 *)
  | CAdd t => sd_add d t                                                       (* :103-106 *)
  | CDrop => if sd_closed d then (d, [])                                       (* :114-119 *)
             else let '(d', w) := sd_unsubscribe d in (d', w ++ [EObs Uns])
  end.
Definition mock (A E : Type) : subscriber (ncall A E) A E :=
  {| st := sdata; s0 := mkSData false []; w0 := []; step := @mock_step A E; closed := sd_closed |}.

(** HarnessDestination around it, src/harness/test_harness.rs:262-357. *)
Definition t_harness {A E} (take_count : option nat) : trans A E A E :=
  simple_trans take_count
    (fun q _ a =>
       match q with
       | Some c => if 0 <? c then (Some (c - 1), Do (Nxt a) :: (if c - 1 =? 0 then [IfOpen Cmp] else [])) else (q, [])
       | None => (q, [Do (Nxt a)])
       end) fwd_error fwd_complete.

(** What the collector has been given. *)
Definition seen {X} (w : list (ev X)) : list X := flat_map (fun e => match e with EObs x => [x] | _ => [] end) w.
(** src/tracked_teardown.rs:12-50: a flag that teardown [n] sets when it is executed. *)
Definition was_torn_down {X} (n : nat) (w : list (ev X)) : bool :=
  existsb (fun e => match e with ETd k => k =? n | _ => false end) w.
Definition td_count {X} (n : nat) (w : list (ev X)) : nat :=
  length (filter (fun e => match e with ETd k => k =? n | _ => false end) w).

(** TestHarness::assert_terminal_notification (test_harness.rs:160-212), given what was collected,
    [is_closed] of the subscription, and the three tracked teardowns. *)
Definition assert_terminal {A E} (eqb : ncall A E -> ncall A E -> bool) (n : ncall A E) (l : list (ncall A E))
    (closed up down sub : bool) : bool :=
  let c := collect l in
  (0 <? c_len c) && negb (is_next n) && (assert_notifications eqb c (c_len c - 1) [n] true && (closed && (up && (down && sub)))).

(** ** MultiRoundNotificationCollectorState, src/multi_round_notification_collector.rs:47-60: which
    collector is given out, [None] is the panic of Vec::insert. *)
Definition get_round (rounds : list nat) (fresh round : nat) : option (nat * list nat) :=
  match nth_error rounds round with
  | Some c => Some (c, rounds)
  | None => if round <=? length rounds then Some (fresh, firstn round rounds ++ fresh :: skipn round rounds) else None
  end.
