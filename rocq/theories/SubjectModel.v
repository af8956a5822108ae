(** The publish subject: a table of subscribers behind a mutex and a queue of
    deferred notifications for calls that arrive while the table is locked.
    crates/rx_core_subject_publish/src/{publish_subject,multicast,multicast_subscription}.rs.
    The behavior, replay and async subjects are a publish subject and a stored value;
    see [policy]. One thread. No proofs in this file. *)
From Verif Require Import Base.
Set Implicit Arguments.

(** What a subscriber is told. *)
Inductive sev (A E : Type) : Type :=
| SN (a : A)
| SE (e : E)
| SC
| SU.             (* unsubscribe: its teardowns run *)
Arguments SN {A E} a.
Arguments SE {A E} e.
Arguments SC {A E}.
Arguments SU {A E}.

(** Calls on the publish subject. Subscribers are numbered in the order of the subscribe
    calls; [KOff i] is unsubscribe() on the subscription returned for subscriber [i].
    [KSub r] is a subscriber who is first given the values [r] by the subject around
    the publish subject, and then subscribed. *)
Inductive cmd (A E : Type) : Type :=
| KNext (a : A)
| KErr (e : E)
| KCmp
| KUns
| KSub (r : list A)
| KOff (i : nat).
Arguments KNext {A E} a.
Arguments KErr {A E} e.
Arguments KCmp {A E}.
Arguments KUns {A E}.
Arguments KSub {A E} r.
Arguments KOff {A E} i.

(** Calls made by the users of a subject. *)
Inductive ucmd (A E : Type) : Type :=
| UNext (a : A)
| UErr (e : E)
| UCmp
| UUns
| USub
| UOff (i : nat).
Arguments UNext {A E} a.
Arguments UErr {A E} e.
Arguments UCmp {A E}.
Arguments UUns {A E}.
Arguments USub {A E}.
Arguments UOff {A E} i.

(** What a subject keeps, and which calls it makes on its publish subject for a call of
    a user, given whether the publish subject is closed and whether it is errored. *)
Record policy (A E : Type) : Type := mkPolicy {
  po_store : Type;
  po_init : po_store;
  po_keep : po_store -> ucmd A E -> po_store;
  po_calls : po_store -> bool -> bool -> ucmd A E -> list (cmd A E)
}.

(** PublishSubject itself *)
Definition plain {A E} : policy A E :=
  {| po_store := unit; po_init := tt; po_keep := fun x _ => x;
     po_calls := fun _ _ _ u =>
       match u with
       | UNext a => [KNext a] | UErr e => [KErr e] | UCmp => [KCmp] | UUns => [KUns]
       | USub => [KSub []] | UOff i => [KOff i]
       end |}.

(** rx_core_subject_behavior/src/behavior_subject.rs:43-48, :64-77, :97-104; unsubscribe
    and is_closed are delegated to the publish subject (:16). The value is replaced even
    when the subject is closed already (:65). *)
Definition behavior {A E} (v : A) : policy A E :=
  {| po_store := A; po_init := v;
     po_keep := fun x u => match u with UNext a => a | _ => x end;
     po_calls := fun x _ errored u =>
       match u with
       | UNext a => [KNext a] | UErr e => [KErr e] | UCmp => [KCmp] | UUns => [KUns]
       | USub => [KSub (if errored then [] else [x])] | UOff i => [KOff i]
       end |}.

(** The last [n] of a list. *)
Definition lastn {A} (n : nat) (l : list A) : list A := skipn (length l - n) l.

(** rx_core_subject_replay/src/replay_subject.rs:64-78, :98-108. The ring buffer
    (crate ringbuffer, not part of the repository) is a list of at most [n] values. *)
Definition replay {A E} (n : nat) : policy A E :=
  {| po_store := list A; po_init := [];
     po_keep := fun x u => match u with UNext a => lastn n (x ++ [a]) | _ => x end;
     po_calls := fun x _ errored u =>
       match u with
       | UNext a => [KNext a] | UErr e => [KErr e] | UCmp => [KCmp] | UUns => [KUns]
       | USub => [KSub (if errored then [] else x)] | UOff i => [KOff i]
       end |}.

Definition opt_list {A} (o : option A) : list A :=
  match o with Some a => [a] | None => [] end.

(** rx_core_subject_async/src/async_subject.rs:87-113, :134-151 *)
Definition async {A E} (reduce : A -> A -> A) : policy A E :=
  {| po_store := option A; po_init := None;
     po_keep := fun x u =>
       match u with
       | UNext a => Some (match x with Some c => reduce c a | None => a end)
       | _ => x
       end;
     po_calls := fun x closed errored u =>
       match u with
       | UNext a => [] | UErr e => [KErr e]
       | UCmp => map KNext (opt_list x) ++ [KCmp]
       | UUns => [KUns]
       | USub => [KSub (if closed && negb errored then opt_list x else [])]
       | UOff i => [KOff i]
       end |}.

(** multicast_notification.rs:9-26 *)
Inductive mnot (A E : Type) : Type :=
| MNext (a : A)
| MErr (e : E)
| MCmp
| MUns
| MOff (i : nat)
| MAdd (i : nat).
Arguments MNext {A E} a.
Arguments MErr {A E} e.
Arguments MCmp {A E}.
Arguments MUns {A E}.
Arguments MOff {A E} i.
Arguments MAdd {A E} i.

Inductive halted : Type :=
| HPanic          (* multicast.rs:141-145, depth limit *)
| HDeadlock       (* deferred_state locked twice by one thread *)
| HNested         (* a subscriber calls the subject while being given the stored
                     values, before it is subscribed: not modelled *)
| HThrow (p : option nat).   (* a subscriber panics, see PubPanicModel.v; not in this file *)

Definition setf {X} (f : nat -> X) (t : nat) (x : X) : nat -> X :=
  fun u => if Nat.eqb u t then x else f u.

Record subject (A E X : Type) : Type := mkSubject {
  sj_next_id : nat;
  sj_tbl : list nat;               (* keys of the subscriber table, multicast.rs:27-28 *)
  sj_shut : nat -> bool;           (* is_closed() of the subscribers *)
  sj_taken : nat -> bool;          (* subscription handles already unsubscribed,
                                      multicast_subscription.rs:92 *)
  sj_queue : list (mnot A E);      (* multicast.rs:296 *)
  sj_flag : bool;                  (* closed_flag, :300 *)
  sj_cmp : bool;                   (* observed_state completed, :302 *)
  sj_uns : bool;                   (* observed_state unsubscribed *)
  sj_err : option E;               (* observed_error, :305 *)
  sj_iter : nat;                   (* number of iterations over the table so far *)
  sj_store : X;                    (* the stored value of the subject around this one *)
  sj_user : list (ucmd A E);       (* all calls made by users so far *)
  sj_made : list (cmd A E);        (* all calls made so far, from outside and inside *)
  sj_log : list (nat * sev A E);   (* what the subscribers were told *)
  sj_halt : option halted
}.

Section State.
Context {A E X : Type}.
Notation subject := (subject A E X).
Implicit Types s : subject.

Definition with_id s n : subject :=
  {| sj_next_id := n; sj_tbl := sj_tbl s; sj_shut := sj_shut s; sj_taken := sj_taken s;
     sj_queue := sj_queue s; sj_flag := sj_flag s; sj_cmp := sj_cmp s; sj_uns := sj_uns s;
     sj_err := sj_err s; sj_iter := sj_iter s; sj_store := sj_store s;
     sj_user := sj_user s; sj_made := sj_made s; sj_log := sj_log s;
     sj_halt := sj_halt s |}.
Definition with_tbl s t : subject :=
  {| sj_next_id := sj_next_id s; sj_tbl := t; sj_shut := sj_shut s; sj_taken := sj_taken s;
     sj_queue := sj_queue s; sj_flag := sj_flag s; sj_cmp := sj_cmp s; sj_uns := sj_uns s;
     sj_err := sj_err s; sj_iter := sj_iter s; sj_store := sj_store s;
     sj_user := sj_user s; sj_made := sj_made s; sj_log := sj_log s;
     sj_halt := sj_halt s |}.
Definition with_event s i e (c : bool) : subject :=
  {| sj_next_id := sj_next_id s; sj_tbl := sj_tbl s;
     sj_shut := if c then setf (sj_shut s) i true else sj_shut s; sj_taken := sj_taken s;
     sj_queue := sj_queue s; sj_flag := sj_flag s; sj_cmp := sj_cmp s; sj_uns := sj_uns s;
     sj_err := sj_err s; sj_iter := sj_iter s; sj_store := sj_store s;
     sj_user := sj_user s; sj_made := sj_made s;
     sj_log := sj_log s ++ [(i, e)]; sj_halt := sj_halt s |}.
Definition with_taken s i : subject :=
  {| sj_next_id := sj_next_id s; sj_tbl := sj_tbl s; sj_shut := sj_shut s;
     sj_taken := setf (sj_taken s) i true;
     sj_queue := sj_queue s; sj_flag := sj_flag s; sj_cmp := sj_cmp s; sj_uns := sj_uns s;
     sj_err := sj_err s; sj_iter := sj_iter s; sj_store := sj_store s;
     sj_user := sj_user s; sj_made := sj_made s; sj_log := sj_log s;
     sj_halt := sj_halt s |}.
Definition with_queue s q : subject :=
  {| sj_next_id := sj_next_id s; sj_tbl := sj_tbl s; sj_shut := sj_shut s; sj_taken := sj_taken s;
     sj_queue := q; sj_flag := sj_flag s; sj_cmp := sj_cmp s; sj_uns := sj_uns s;
     sj_err := sj_err s; sj_iter := sj_iter s; sj_store := sj_store s;
     sj_user := sj_user s; sj_made := sj_made s; sj_log := sj_log s;
     sj_halt := sj_halt s |}.
Definition with_flag s : subject :=
  {| sj_next_id := sj_next_id s; sj_tbl := sj_tbl s; sj_shut := sj_shut s; sj_taken := sj_taken s;
     sj_queue := sj_queue s; sj_flag := true; sj_cmp := sj_cmp s; sj_uns := sj_uns s;
     sj_err := sj_err s; sj_iter := sj_iter s; sj_store := sj_store s;
     sj_user := sj_user s; sj_made := sj_made s; sj_log := sj_log s;
     sj_halt := sj_halt s |}.
Definition with_obs s c u e : subject :=
  {| sj_next_id := sj_next_id s; sj_tbl := sj_tbl s; sj_shut := sj_shut s; sj_taken := sj_taken s;
     sj_queue := sj_queue s; sj_flag := sj_flag s; sj_cmp := c; sj_uns := u;
     sj_err := e; sj_iter := sj_iter s; sj_store := sj_store s;
     sj_user := sj_user s; sj_made := sj_made s; sj_log := sj_log s;
     sj_halt := sj_halt s |}.
Definition with_made s c : subject :=
  {| sj_next_id := sj_next_id s; sj_tbl := sj_tbl s; sj_shut := sj_shut s; sj_taken := sj_taken s;
     sj_queue := sj_queue s; sj_flag := sj_flag s; sj_cmp := sj_cmp s; sj_uns := sj_uns s;
     sj_err := sj_err s; sj_iter := sj_iter s; sj_store := sj_store s;
     sj_user := sj_user s; sj_made := sj_made s ++ [c]; sj_log := sj_log s;
     sj_halt := sj_halt s |}.
Definition with_halt s h : subject :=
  {| sj_next_id := sj_next_id s; sj_tbl := sj_tbl s; sj_shut := sj_shut s; sj_taken := sj_taken s;
     sj_queue := sj_queue s; sj_flag := sj_flag s; sj_cmp := sj_cmp s; sj_uns := sj_uns s;
     sj_err := sj_err s; sj_iter := sj_iter s; sj_store := sj_store s;
     sj_user := sj_user s; sj_made := sj_made s; sj_log := sj_log s;
     sj_halt := Some h |}.
Definition with_iter s : subject :=
  {| sj_next_id := sj_next_id s; sj_tbl := sj_tbl s; sj_shut := sj_shut s; sj_taken := sj_taken s;
     sj_queue := sj_queue s; sj_flag := sj_flag s; sj_cmp := sj_cmp s; sj_uns := sj_uns s;
     sj_err := sj_err s; sj_iter := S (sj_iter s); sj_store := sj_store s;
     sj_user := sj_user s; sj_made := sj_made s; sj_log := sj_log s;
     sj_halt := sj_halt s |}.

Definition with_user s x u : subject :=
  {| sj_next_id := sj_next_id s; sj_tbl := sj_tbl s; sj_shut := sj_shut s; sj_taken := sj_taken s;
     sj_queue := sj_queue s; sj_flag := sj_flag s; sj_cmp := sj_cmp s; sj_uns := sj_uns s;
     sj_err := sj_err s; sj_iter := sj_iter s; sj_store := x;
     sj_user := sj_user s ++ [u]; sj_made := sj_made s; sj_log := sj_log s;
     sj_halt := sj_halt s |}.

Definition running s : bool := match sj_halt s with None => true | Some _ => false end.

(** multicast.rs:347-352, publish_subject.rs:250-252 *)
Definition sj_closed s : bool :=
  sj_flag s || sj_cmp s || sj_uns s || match sj_err s with Some _ => true | None => false end.

Definition history s (i : nat) : list (sev A E) :=
  map snd (filter (fun p => Nat.eqb (fst p) i) (sj_log s)).

(** multicast.rs:313-329; the case that unsubscribes an added subscriber is in [reject]. *)
Definition mdefer s (m : mnot A E) : subject :=
  let first_unsub := match m with MUns => negb (sj_uns s) | _ => false end in
  if sj_flag s && negb first_unsub then s else with_queue s (sj_queue s ++ [m]).

End State.

Section Calls.
Context {A E X : Type}.
(** The reaction of subscriber [i] to an event, given all its events including this
    one: the calls on the subject it makes, and whether it closes itself. Subscribers
    close themselves on error, complete and unsubscribe in any case. Simplified: a
    subscriber closes only in reaction to something it is told. *)
Context (prog : nat -> list (sev A E) -> list (ucmd A E) * bool).
Notation subject := (subject A E X).
Implicit Types s : subject.

(** The new subscriber [i] is given the stored values: behavior_subject.rs:99-102,
    replay_subject.rs:100-106, async_subject.rs:139-143. *)
Definition greet s (i : nat) (r : list A) : subject :=
  fold_left (fun s a =>
    if running s && negb (sj_shut s i) then
      let p := prog i (history s i ++ [SN a]) in
      match fst p with
      | [] => with_event s i (SN a) (snd p)
      | _ => with_halt s HNested
      end
    else s) r s.

(** publish_subject.rs:120-134: a subscriber that comes too late. Its error/complete
    callback runs while deferred_state is locked (:121-127), so any call it makes on
    the subject waits for ever. Simplified: the calls made by the teardown of a
    subscriber refused by an unsubscribed subject (:131-133) are left out; they find a
    closed subject. *)
Definition reject s (i : nat) : subject :=
  if running s && negb (sj_shut s i) then
    let e := match sj_err s, sj_cmp s with
             | Some e, _ => SE e
             | None, true => SC
             | None, false => SU
             end in
    let s2 := with_event s i e true in
    match e, fst (prog i (history s i ++ [e])) with
    | SU, _ => s2
    | _, [] => s2
    | _, _ => with_halt s2 HDeadlock
    end
  else s.

(** A call made by the callback of subscriber [me], with the table locked further up the
    stack: publish_subject.rs:108-213, :254-269, multicast_subscription.rs:57-66, :82-93.
    The mutex of [me] is locked too, so its own subscription does not see whether it is
    closed. *)
Definition inner_call (me : nat) s (c : cmd A E) : subject :=
  if running s then
    let s := with_made s c in
    match c with
    | KNext a => if sj_closed s then s else mdefer s (MNext a)
    | KErr e => if sj_closed s then s
                else mdefer (with_obs s (sj_cmp s) (sj_uns s) (Some e)) (MErr e)
    | KCmp => if sj_closed s then s
              else mdefer (with_obs s true (sj_uns s) (sj_err s)) MCmp
    | KUns => if sj_uns s then s
              else mdefer (with_obs s (sj_cmp s) true (sj_err s)) MUns
    | KSub r =>
        let i := sj_next_id s in
        let s := greet (with_id s (S i)) i r in
        if sj_closed s then reject (with_taken s i) i
        else if running s then mdefer s (MAdd i) else s
    | KOff i =>
        if negb (Nat.eqb i me) && sj_shut s i || sj_taken s i || negb (i <? sj_next_id s) then s
        else mdefer (with_taken s i) (MOff i)
    end
  else s.

Definition ends (e : sev A E) : bool := match e with SN _ => false | _ => true end.

End Calls.

Section Subject.
Context {A E : Type}.
Context (prog : nat -> list (sev A E) -> list (ucmd A E) * bool).
(** The order in which the hash map is iterated, which may be different each time. *)
Context (ord : nat -> list nat -> list nat).
Context (P : policy A E).
Notation subject := (subject A E (po_store P)).
Implicit Types s : subject.

Definition sj_new : subject :=
  {| sj_next_id := 0; sj_tbl := []; sj_shut := fun _ => false; sj_taken := fun _ => false;
     sj_queue := []; sj_flag := false; sj_cmp := false; sj_uns := false; sj_err := None;
     sj_iter := 0; sj_store := po_init P; sj_user := []; sj_made := []; sj_log := []; sj_halt := None |}.

(** behavior_subject.rs:64-104 and so on, inside a notification *)
Definition inner_user (me : nat) s (u : ucmd A E) : subject :=
  if running s then
    let x := po_keep P (sj_store s) u in
    let errored := match sj_err s with Some _ => true | None => false end in
    fold_left (inner_call prog me) (po_calls P x (sj_closed s) errored u) (with_user s x u)
  else s.

(** One subscriber is told something, if it is open: multicast.rs:64-68, :73-75, :81-83,
    :89-91, :97-99. *)
Definition tell s (i : nat) (e : sev A E) : subject :=
  if running s && negb (sj_shut s i) then
    let r := prog i (history s i ++ [e]) in
    fold_left (inner_user i) (fst r) (with_event s i e (ends e || snd r))
  else s.

Definition broadcast s (e : sev A E) : subject :=
  fold_left (fun s i => tell s i e) (ord (sj_iter s) (sj_tbl s)) (with_iter s).

Fixpoint remove_id (i : nat) (l : list nat) : list nat :=
  match l with
  | [] => []
  | j :: l' => if Nat.eqb j i then remove_id i l' else j :: remove_id i l'
  end.

(** multicast.rs:50-101 *)
Definition mapply s (m : mnot A E) : subject :=
  match m with
  | MNext a => broadcast s (SN a)
  | MErr e => broadcast s (SE e)
  | MCmp => broadcast s SC
  | MUns => with_tbl (broadcast s SU) []
  | MOff i =>
      if existsb (Nat.eqb i) (sj_tbl s)
      then tell (with_tbl s (remove_id i (sj_tbl s))) i SU
      else s
  | MAdd i => with_tbl s (sj_tbl s ++ [i])
  end.

Definition is_terminal (m : mnot A E) : bool :=
  match m with MErr _ | MCmp => true | _ => false end.
Definition is_unsub (m : mnot A E) : bool :=
  match m with MUns => true | _ => false end.

(** multicast.rs:160-193, one notification of a drained queue *)
Definition mapply_one s (m : mnot A E) : subject :=
  if running s then
    match m with
    | MAdd i =>
        if sj_shut s i then s
        else if sj_flag s then tell s i SU
        else mapply s m
    | _ =>
        let s := if sj_flag s then s else mapply s m in
        let s := if is_terminal m then mapply s MUns else s in
        if is_unsub m || is_terminal m then with_flag s else s
    end
  else s.

(** multicast.rs:37-40 *)
Definition clean s : subject :=
  with_tbl s (filter (fun i => negb (sj_shut s i)) (sj_tbl s)).

(** multicast.rs:136-196, as in SharedModel *)
Fixpoint mapply_queue (left : nat) s : subject :=
  if running s then
    match left with
    | 0 => with_halt s HPanic
    | S left' =>
        match sj_queue s with
        | [] => s
        | ms => mapply_queue left' (clean (fold_left mapply_one ms (with_queue s [])))
        end
    end
  else s.

Definition mdepth : nat := 10.    (* multicast.rs:18 *)

(** publish_subject.rs:74-83 with the table free *)
Definition mtry_apply s : subject :=
  match sj_queue s with [] => s | _ => mapply_queue mdepth s end.

(** A call made from outside, with the table free: the same functions, now with
    try_lock succeeding (multicast.rs:199-287). unsubscribe() on a subscription does
    not end with try_apply_deferred (multicast_subscription.rs:82-93). *)
Definition outer_call s (c : cmd A E) : subject :=
  if running s then
    match c with
    | KNext a =>
        let s := with_made s c in
        mtry_apply (if sj_closed s then s
                    else let s := mapply_queue mdepth s in
                         if running s then mapply s (MNext a) else s)
    | KErr e =>
        let s := with_made s c in
        mtry_apply (if sj_closed s then s
                    else let s := with_obs s (sj_cmp s) (sj_uns s) (Some e) in
                         let s := mapply_queue mdepth s in
                         if running s then mapply s (MErr e) else s)
    | KCmp =>
        let s := with_made s c in
        mtry_apply (if sj_closed s then s
                    else let s := with_obs s true (sj_uns s) (sj_err s) in
                         let s := mapply_queue mdepth s in
                         if running s then mapply s MCmp else s)
    | KUns =>
        let s := with_made s c in
        mtry_apply (if sj_uns s then s
                    else let s := with_obs s (sj_cmp s) true (sj_err s) in
                         let s := mapply_queue mdepth s in
                         if running s then mapply (with_flag s) MUns else s)
    | KSub r =>
        let s := with_made s c in
        let i := sj_next_id s in
        let s := mtry_apply (greet prog (with_id s (S i)) i r) in
        if running s then
          if sj_closed s then reject prog (with_taken s i) i
          else let s := mapply_queue mdepth s in
               if running s then mtry_apply (mapply s (MAdd i)) else s
        else s
    | KOff i =>
        let s := with_made s c in
        if sj_shut s i || sj_taken s i || negb (i <? sj_next_id s) then s
        else let s := mapply_queue mdepth (with_taken s i) in
             if running s then mapply s (MOff i) else s
    end
  else s.

(** A call of a user from outside *)
Definition outer_user s (u : ucmd A E) : subject :=
  if running s then
    let x := po_keep P (sj_store s) u in
    let errored := match sj_err s with Some _ => true | None => false end in
    fold_left outer_call (po_calls P x (sj_closed s) errored u) (with_user s x u)
  else s.

Definition outer_users s (us : list (ucmd A E)) : subject := fold_left outer_user us s.

End Subject.
