(** Observables that combine two sources: zip, combine_latest, combine_changes, join; and the
    operator with_latest_from. No proofs in this file. Simplified: both sources have the same
    error type (the code converts with [Into]). *)
From Coq Require Import NArith.
From Verif Require Import Base SubscrModel LifeModel.
Set Implicit Arguments.

(** crates/rx_core_notification_variadics/src/either_observable_notification_2.rs:4-11; what
    either_subscriber_2.rs:58-97 makes of a call on the subscriber of the first or second source. *)
Inductive either2 (A1 A2 E : Type) : Type :=
| On1 (n : ncall A1 E)
| On2 (n : ncall A2 E).
Arguments On1 {A1 A2 E} n.
Arguments On2 {A1 A2 E} n.

(** *** NotificationState, crates/rx_core_notification_store/src/notification_state.rs. *)
Section NState.
Variables A E : Type.
Record nstate : Type := mkNS { ns_value : option A; ns_error : option E; ns_flags : N }.
Definition ns_new : nstate := mkNS None None fresh.                   (* :27-33 *)
Definition ns_push (n : ncall A E) (s : nstate) : option nstate :=    (* :114-121 *)
  match n with
  | Nxt a =>                                                          (* :57-60 *)
      match set_next (ns_flags s) with Some f => Some (mkNS (Some a) (ns_error s) f) | None => None end
  | Err e =>                                                          (* :86-89 *)
      match set_error (ns_flags s) with Some f => Some (mkNS (ns_value s) (Some e) f) | None => None end
  | Cmp =>                                                            (* :104-106 *)
      match set_complete (ns_flags s) with Some f => Some (mkNS (ns_value s) (ns_error s) f) | None => None end
  | Uns =>                                                            (* :109-113 *)
      if is_unsubscribed (ns_flags s) then Some s else
      match set_unsubscribe (ns_flags s) with Some f => Some (mkNS (ns_value s) (ns_error s) f) | None => None end
  end.
Definition ns_take_error (s : nstate) : option E * nstate :=          (* :99-101 *)
  (ns_error s, mkNS (ns_value s) None (ns_flags s)).
End NState.
Arguments ns_new {A E}.

Definition opt_pair {X Y} (a : option X) (b : option Y) : option (X * Y) :=   (* [Option::zip] *)
  match a, b with Some x, Some y => Some (x, y) | _, _ => None end.

(** *** The destination: any function of what it was told says whether it has closed itself; it
    is closed after a closing call in any case. *)
Record told (B E : Type) : Type := mkTold { t_out : list (ncall B E); t_shut : bool }.
Definition t_new {B E} : told B E := mkTold [] false.
Definition tell {B E} (down : list (ncall B E) -> bool) (c : ncall B E) (w : told B E) : told B E :=
  let l := t_out w ++ [c] in mkTold l (t_shut w || is_closing c || down l).

Section Combine.
Variables A1 A2 E : Type.

(** *** The [next] of the four combining subscribers. [None] is a panic. *)
Section Latest.
Variable B : Type.
Variable down : list (ncall B E) -> bool.
Notation nst := (nstate A1 E * nstate A2 E)%type.
Notation world := (told B E).

Definition ns_pushed (e : either2 A1 A2 E) (s : nst) : option nst :=
  match e with
  | On1 n => match ns_push n (fst s) with Some s1 => Some (s1, snd s) | None => None end
  | On2 n => match ns_push n (snd s) with Some s2 => Some (fst s, s2) | None => None end
  end.
Definition was_next (e : either2 A1 A2 E) : bool :=
  match e with On1 n => is_next n | On2 n => is_next n end.
(** [take_either_error], e.g. combine_latest_subscriber.rs:66-71. *)
Definition take_either_error (s : nst) : option E * nst :=
  match ns_take_error (fst s) with
  | (Some e, s1) => (Some e, (s1, snd s))
  | (None, s1) => let '(e, s2) := ns_take_error (snd s) in (e, (s1, s2))
  end.
Definition latest (s : nst) : option (A1 * A2) := opt_pair (ns_value (fst s)) (ns_value (snd s)).

(** combine_latest_subscriber.rs:107-143, [emit] is what it tells the destination at the end. *)
Definition state_next (complete unsubscribe : nst -> world -> world) (emit : nst -> option B)
    (e : either2 A1 A2 E) (s : nst) (w : world) : option (nst * world) :=
  match ns_pushed e s with
  | None => None
  | Some s1 =>
      match take_either_error s1 with
      | (Some x, s2) => Some (s2, tell down (Err x) w)
      | (None, s2) =>
          let w2 := unsubscribe s2 (complete s2 w) in
          Some (s2, if was_next e && negb (t_shut w2)
                    then match emit s2 with Some b => tell down (Nxt b) w2 | None => w2 end
                    else w2)
      end
  end.

Definition both_completed (s : nst) : bool := is_completed (ns_flags (fst s)) && is_completed (ns_flags (snd s)).
Definition both_closed (s : nst) : bool := is_closed (ns_flags (fst s)) && is_closed (ns_flags (snd s)).
Definition try_with (cond : nst -> bool) (c : ncall B E) (s : nst) (w : world) : world :=
  if negb (t_shut w) && cond s then tell down c w else w.

(** combine_latest_subscriber.rs:73-93 *)
Definition cl_complete (s : nst) : bool :=
  let f1 := ns_flags (fst s) in let f2 := ns_flags (snd s) in
  both_completed s || (is_primed f1 && is_completed_but_not_primed f2)
                   || (is_completed_but_not_primed f1 && is_primed f2).
Definition cl_unsubscribe (s : nst) : bool :=
  let f1 := ns_flags (fst s) in let f2 := ns_flags (snd s) in
  both_closed s || (is_waiting f1 && is_closed_but_not_primed f2)
                || (is_closed_but_not_primed f1 && is_waiting f2).
End Latest.

Definition combine_latest_next (down : list (ncall (A1 * A2) E) -> bool) :=
  state_next down (try_with down cl_complete Cmp) (try_with down cl_unsubscribe Uns) latest.

(** crates/rx_core_observable_combine_changes/src/change.rs:2-6 *)
Inductive change (T : Type) : Type := JustUpdated (t : T) | Latest (t : T) | NoChange.
Arguments NoChange {T}.
Definition change_of {T} (just : bool) (v : option T) : change T :=
  match v with Some t => if just then JustUpdated t else Latest t | None => NoChange end.
(** combine_changes_subscriber.rs:74-88, 106-160 *)
Definition combine_changes_next (down : list (ncall (change A1 * change A2) E) -> bool) (e : either2 A1 A2 E) :=
  state_next down (try_with down both_completed Cmp) (try_with down both_closed Uns)
    (fun s => Some (change_of (match e with On1 _ => true | On2 _ => false end) (ns_value (fst s)),
                    change_of (match e with On2 _ => true | On1 _ => false end) (ns_value (snd s)))) e.

(** join_subscriber.rs:77-88: the value, then the completion, whatever the destination did. *)
Definition join_complete (down : list (ncall (A1 * A2) E) -> bool) (s : nstate A1 E * nstate A2 E)
    (w : told (A1 * A2) E) : told (A1 * A2) E :=
  if negb (t_shut w) && both_completed s then
    tell down Cmp (match latest s with Some b => tell down (Nxt b) w | None => w end)
  else w.
(** join_subscriber.rs:109-136 *)
Definition join_next (down : list (ncall (A1 * A2) E) -> bool) (e : either2 A1 A2 E)
    (s : nstate A1 E * nstate A2 E) (w : told (A1 * A2) E)
    : option ((nstate A1 E * nstate A2 E) * told (A1 * A2) E) :=
  let bad := match e with
             | On1 n => update_would_be_invalid (ns_flags (fst s)) n
             | On2 n => update_would_be_invalid (ns_flags (snd s)) n
             end in
  match (if bad then Some s else ns_pushed e s) with
  | None => None
  | Some s1 =>
      match take_either_error s1 with
      | (Some x, s2) => Some (s2, tell down (Err x) w)
      | (None, s2) => Some (s2, try_with down both_closed Uns s2 (join_complete down s2 w))
      end
  end.

(** *** zip_subscriber.rs *)
Notation qst := (nqueue A1 E * nqueue A2 E)%type.
Definition zip_pushed (e : either2 A1 A2 E) (s : qst) : option qst :=
  match e with
  | On1 n => match nq_push n (fst s) with Some s1 => Some (s1, snd s) | None => None end
  | On2 n => match nq_push n (snd s) with Some s2 => Some (fst s, s2) | None => None end
  end.
Definition zip_take_error (s : qst) : option E * qst :=               (* :73-78 *)
  match nq_take_error (fst s) with
  | (Some e, s1) => (Some e, (s1, snd s))
  | (None, s1) => let '(e, s2) := nq_take_error (snd s) in (e, (s1, s2))
  end.
(** :62-71. [Option::zip] evaluates both pops. *)
Definition zip_get_next (s : qst) : option (option (A1 * A2) * qst) :=
  if negb (has_next (fst s)) || negb (has_next (snd s)) then Some (None, s) else
  match nq_pop (fst s) with
  | None => None
  | Some (a, s1) =>
      match nq_pop (snd s) with
      | None => None
      | Some (b, s2) => Some (opt_pair a b, (s1, s2))
      end
  end.
Definition nq_is_empty {A} (q : nqueue A E) : bool :=                 (* notification_queue.rs:130-132 *)
  match nq_queue q with [] => true | _ => false end.
Definition zip_ends (f : N -> bool) (s : qst) : bool :=               (* :80-98 *)
  let f1 := f (nq_state (fst s)) in let f2 := f (nq_state (snd s)) in
  (f1 && f2) || (f1 && nq_is_empty (snd s)) || (nq_is_empty (fst s) && f2).
Definition zip_next (down : list (ncall (A1 * A2) E) -> bool) (e : either2 A1 A2 E) (s : qst)   (* :111-144 *)
    (w : told (A1 * A2) E) : option (qst * told (A1 * A2) E) :=
  match zip_pushed e s with
  | None => None
  | Some s1 =>
      match zip_take_error s1 with
      | (Some x, s2) => Some (s2, tell down (Err x) w)
      | (None, s2) =>
          match (if was_next e && negb (t_shut w) then zip_get_next s2 else Some (None, s2)) with
          | None => None
          | Some (o, s3) =>
              let w3 := match o with Some p => tell down (Nxt p) w | None => w end in
              let w4 := if negb (t_shut w3) && zip_ends is_completed s3 then tell down Cmp w3 else w3 in
              let w5 := if negb (t_shut w4) && zip_ends is_closed s3 then tell down Uns w4 else w4 in
              Some (s3, w5)
          end
      end
  end.

(** *** From the sources to the combining subscriber: a [SharedSubscriber]
    (crates/rx_core_common/src/subscribers/subscriber_shared.rs:325-393). Only [next] is called
    on it, so it is closed exactly if the destination is, and then drops the call; a call made
    while it is in use has been deferred and is not dropped. *)
Fixpoint comb_run {B S} (next : either2 A1 A2 E -> S -> told B E -> option (S * told B E))
    (h : list (bool * either2 A1 A2 E)) (s : S) (w : told B E) : option (S * told B E) :=
  match h with
  | [] => Some (s, w)
  | (deferred, e) :: h' =>
      if t_shut w && negb deferred then comb_run next h' s w else
      match next e s w with Some (s', w') => comb_run next h' s' w' | None => None end
  end.
(** What the destination is told. *)
Definition comb_out {B S} (next : either2 A1 A2 E -> S -> told B E -> option (S * told B E)) (s : S)
    (h : list (bool * either2 A1 A2 E)) : option (list (ncall B E)) :=
  match comb_run next h s t_new with Some (_, w) => Some (t_out w) | None => None end.

(** crates/rx_core_observable_*/src/*_observable.rs, [subscribe]. *)
Definition combine_latest down := comb_out (combine_latest_next down) (ns_new, ns_new).
Definition combine_changes down := comb_out (combine_changes_next down) (ns_new, ns_new).
Definition join down := comb_out (join_next down) (ns_new, ns_new).
Definition zip (max : nat) (o : overflow) down :=
  comb_out (zip_next down) (nq_new A1 E max o, nq_new A2 E max o).
End Combine.
Arguments NoChange {T}.

(** *** with_latest_from. *)
Section WithLatest.
Variables A1 A2 E : Type.   (* the source, the inner observable *)
Variable down : list (ncall (A1 * A2) E) -> bool.

(** with_latest_from_inner_destination.rs:8-46, and whether the [ObserverSubscriber] around the
    inner destination is closed. *)
Record wlf : Type := mkWLF {
  wl_value : option A2; wl_error : bool; wl_completed : bool;
  wl_inner_closed : bool;
  wl_told : told (A1 * A2) E
}.
Definition wl_new : wlf := mkWLF None false false false t_new.
Definition wl_finished (s : wlf) : bool := wl_completed s || wl_error s.

(** The shared destination: closed exactly if the destination is (each closing call on it is
    passed on at once). *)
Definition wl_tell (c : ncall (A1 * A2) E) (s : wlf) : wlf :=
  if t_shut (wl_told s) then s
  else mkWLF (wl_value s) (wl_error s) (wl_completed s) (wl_inner_closed s) (tell down c (wl_told s)).
Definition wl_close (s : wlf) : wlf := mkWLF (wl_value s) (wl_error s) (wl_completed s) true (wl_told s).

(** with_latest_from_inner_destination.rs:84-103, each guarded as by
    crates/rx_core_common/src/subscribers/subscriber_observer.rs:35-70 *)
Definition wl_inner (n : ncall A2 E) (s : wlf) : wlf :=
  if wl_inner_closed s then s else
  match n with
  | Nxt a => if wl_finished s then s else mkWLF (Some a) (wl_error s) (wl_completed s) false (wl_told s)
  | Err e =>
      wl_close (wl_tell (Err e)
        (if wl_finished s then s else mkWLF (wl_value s) true (wl_completed s) false (wl_told s)))
  | Cmp =>
      let s1 := if wl_finished s then s else mkWLF (wl_value s) (wl_error s) true false (wl_told s) in
      wl_close (match wl_value s1 with None => wl_tell Cmp s1 | Some _ => s1 end)
  | Uns => wl_close s
  end.
(** with_latest_from_subscriber.rs:71-102 *)
Definition wl_source (n : ncall A1 E) (s : wlf) : wlf :=
  match n with
  | Nxt a => match wl_value s with Some b => wl_tell (Nxt (a, b)) s | None => s end
  | Err e => wl_tell (Err e) s
  | Cmp => wl_tell Cmp s
  | Uns => wl_tell Uns (wl_close s)
  end.
Definition wl_step (s : wlf) (e : either2 A1 A2 E) : wlf :=
  match e with On1 n => wl_source n s | On2 n => wl_inner n s end.
Definition with_latest_from (h : list (either2 A1 A2 E)) : list (ncall (A1 * A2) E) :=
  t_out (wl_told (fold_left wl_step h wl_new)).
End WithLatest.
