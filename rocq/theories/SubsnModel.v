(** [SharedSubscription]: the clones of one subscription, used by any number of threads,
    with teardowns that call back into it. No proofs in this file.

    crates/rx_core_common/src/subscriptions/subscription_shared.rs, on top of
    subscription_data.rs and, for add_teardown, [Arc<Mutex<_>>] of
    crates/rx_core_common/src/subscribers/subscriber_arc_mutex.rs.

    A thread is a stack of commands; a step of a thread is what it does between two
    accesses to shared memory that others can see: taking or releasing the mutex around
    the subscription data, looking at or changing the deferred state (its mutex is only
    held for such an instant, so it is not modelled), and running a teardown.
    [sched]uling is arbitrary. *)
From Verif Require Import Base.
Set Implicit Arguments.

(** What can be done with a clone: unsubscribe(), add(teardown n), is_closed(), dropping
    the clone when the thread has another one, and dropping the last clone of the thread. *)
Inductive op : Type := OUnsub | OAdd (n : nat) | OAsk | OPart | OLast.

Inductive cmd : Type :=
| KOp (o : op)
| KApply              (* try_apply_deferred: is it dirty? *)
| KApplyLock          (* ... it was: try_lock *)
| KQueue (d : nat)    (* apply_notification_queue, round d; the mutex is held *)
| KNotes (k : nat)    (* k notifications of this round left *)
| KFlag               (* closed_flag.close() *)
| KObserve            (* set observed_unsubscribe *)
| KTryUnsub           (* try_unsubscribe: try_lock *)
| KDefer              (* defer_notification(Unsubscribe) *)
| KData               (* SubscriptionData::unsubscribe *)
| KRun (l : list nat) (* the rest of the finalizers being drained *)
| KLock (n : nat)     (* add_teardown: lock *)
| KPush (n : nat)     (* SubscriptionData::add_teardown *)
| KAskLock            (* is_closed: try_lock *)
| KUnlock             (* the mutex guard is dropped *)
| KGone.              (* the fields of a dropped clone are dropped *)

(** What happened, in order: thread [t] begins [o]; the teardown [n] is stored / run when
    the finalizers are drained / run at once because the data is closed; the answer of is_closed(). *)
Inductive event : Type :=
| VBegin (t : nat) (o : op)
| VStored (n : nat)
| VRun (n : nat)
| VLate (n : nat)
| VAnswer (t : nat) (b : bool).

Record st : Type := mkSt {
  v_lock : option nat;         (* the thread that holds the mutex of the data *)
  v_closed : bool;             (* subscription_data.rs:18 closed_flag *)
  v_fins : list nat;           (* subscription_data.rs:19 finalizers *)
  v_observed : bool;           (* subscription_shared.rs:25 observed_unsubscribe *)
  v_flag : bool;               (* subscription_shared.rs:22 closed_flag of the deferred state *)
  v_queue : nat;               (* subscription_shared.rs:18: the queue; its only kind of element is Unsubscribe *)
  v_refs : nat;                (* threads that have a clone *)
  v_panic : bool;              (* subscription_shared.rs:130-134 *)
  v_dirty : bool;              (* subscription_shared.rs:72-75, the failing debug_assert *)
  v_log : list event;
  v_thr : list (list cmd)
}.

Section Model.
  (** What teardown [n] does with the clone it has captured. *)
  Variable body : nat -> list op.

  (** Running a closure; a captured clone is dropped with it. *)
  Definition run_teardown (n : nat) : list cmd :=
    match body n with [] => [] | l => map KOp l ++ [KApply] end.
  Definition captures (n : nat) : bool := match body n with [] => false | _ => true end.

  Definition with_lock s x := mkSt x (v_closed s) (v_fins s) (v_observed s) (v_flag s) (v_queue s) (v_refs s) (v_panic s) (v_dirty s) (v_log s) (v_thr s).
  Definition with_data s c f := mkSt (v_lock s) c f (v_observed s) (v_flag s) (v_queue s) (v_refs s) (v_panic s) (v_dirty s) (v_log s) (v_thr s).
  Definition with_observed s x := mkSt (v_lock s) (v_closed s) (v_fins s) x (v_flag s) (v_queue s) (v_refs s) (v_panic s) (v_dirty s) (v_log s) (v_thr s).
  Definition with_flag s x := mkSt (v_lock s) (v_closed s) (v_fins s) (v_observed s) x (v_queue s) (v_refs s) (v_panic s) (v_dirty s) (v_log s) (v_thr s).
  Definition with_queue s x := mkSt (v_lock s) (v_closed s) (v_fins s) (v_observed s) (v_flag s) x (v_refs s) (v_panic s) (v_dirty s) (v_log s) (v_thr s).
  Definition with_refs s x := mkSt (v_lock s) (v_closed s) (v_fins s) (v_observed s) (v_flag s) (v_queue s) x (v_panic s) (v_dirty s) (v_log s) (v_thr s).
  Definition with_panic s := mkSt (v_lock s) (v_closed s) (v_fins s) (v_observed s) (v_flag s) (v_queue s) (v_refs s) true (v_dirty s) (v_log s) (v_thr s).
  Definition with_dirty s := mkSt (v_lock s) (v_closed s) (v_fins s) (v_observed s) (v_flag s) (v_queue s) (v_refs s) (v_panic s) true (v_log s) (v_thr s).
  Definition with_log s e := mkSt (v_lock s) (v_closed s) (v_fins s) (v_observed s) (v_flag s) (v_queue s) (v_refs s) (v_panic s) (v_dirty s) (v_log s ++ [e]) (v_thr s).
  Definition with_thr s x := mkSt (v_lock s) (v_closed s) (v_fins s) (v_observed s) (v_flag s) (v_queue s) (v_refs s) (v_panic s) (v_dirty s) (v_log s) x.

  (** subscription_shared.rs:192-209 unsubscribe, subscriber_arc_mutex.rs:104-115
      add_teardown, :183-190 is_closed, :212-217 drop *)
  Definition begin (o : op) : list cmd :=
    match o with
    | OUnsub => [KApply; KObserve; KApply]
    | OAdd n => [KLock n]
    | OAsk => []
    | OPart => [KApply]
    | OLast => [KApply; KGone]
    end.

  (** The data is dropped when nobody has a clone any more, neither a thread nor a
      teardown that is stored in the data. *)
  Definition freed (s : st) : bool := (v_refs s =? 0) && negb (existsb captures (v_fins s)).

  (** One step of thread [t], whose next command is [c]: the commands that take its place
      and the new state. None: it has to wait. *)
  Definition exec (t : nat) (c : cmd) (s : st) : option (list cmd * st) :=
    match c with
    | KOp o =>
        let s' := with_log s (VBegin t o) in
        match o with
        | OAsk => (* :184, then :185-189 *)
            if v_flag s || v_observed s then Some ([], with_log s' (VAnswer t true))
            else Some ([KAskLock], s')
        | _ => Some (begin o, s')
        end
    | KApply => (* :111 *)
        Some (if v_queue s =? 0 then [] else [KApplyLock], s)
    | KApplyLock => (* :112-117 *)
        match v_lock s with
        | None => Some ([KQueue 0; KUnlock], with_lock s (Some t))
        | Some _ => Some ([], s)
        end
    | KQueue d => (* :126-144 *)
        if d =? 10 then Some ([], with_panic s)
        else if v_queue s =? 0 then Some ([], s)
        else Some ([KNotes (v_queue s); KQueue (S d)], with_queue s 0)
    | KNotes k => (* :149-160 *)
        match k with
        | 0 => Some ([], s)
        | S k' => Some ((if v_flag s then [] else [KData]) ++ [KFlag; KNotes k'], s)
        end
    | KFlag => Some ([], with_flag s true)
    | KObserve => (* :195-206 *)
        Some (if v_observed s then [] else [KTryUnsub], with_observed s true)
    | KTryUnsub => (* :166-177, and :203-205 *)
        match v_lock s with
        | None => Some ([KQueue 0; KFlag; KData; KUnlock], with_lock s (Some t))
        | Some _ => Some ([KDefer], s)
        end
    | KDefer => (* :58-68; observed_unsubscribe is set *)
        Some ([], if v_flag s then s else with_queue s (S (v_queue s)))
    | KData => (* subscription_data.rs:50-58; also its drop, :84-90 *)
        if v_closed s then Some ([], s)
        else Some ([KRun (v_fins s)], with_data s true [])
    | KRun l =>
        match l with
        | [] => Some ([], s)
        | n :: l' => Some (run_teardown n ++ [KRun l'], with_log s (VRun n))
        end
    | KLock n => (* subscriber_arc_mutex.rs:105: waits *)
        match v_lock s with
        | None => Some ([KPush n; KUnlock], with_lock s (Some t))
        | Some _ => None
        end
    | KPush n => (* subscription_data.rs:62-70 *)
        if v_closed s then Some (run_teardown n, with_log s (VLate n))
        else Some ([], with_log (with_data s false (v_fins s ++ [n])) (VStored n))
    | KAskLock => (* :185-189 *)
        match v_lock s with
        | None => Some ([KUnlock], with_log (with_lock s (Some t)) (VAnswer t (v_closed s)))
        | Some _ => Some ([], with_log s (VAnswer t false))
        end
    | KUnlock => Some ([], with_lock s None)
    | KGone =>
        (* the data goes first, :95-96, then the deferred state, :67-77 *)
        let s1 := with_refs s (v_refs s - 1) in
        if freed s1 then
          Some ([KData], if v_queue s =? 0 then s1 else with_dirty s1)
        else Some ([], s1)
    end.

  Definition upd (t : nat) (K : list cmd) (l : list (list cmd)) : list (list cmd) :=
    firstn t l ++ K :: skipn (S t) l.

  (** A step of thread [t]; None: it is finished, or waits. *)
  Definition step (t : nat) (s : st) : option st :=
    match nth_error (v_thr s) t with
    | Some (c :: K) =>
        match exec t c s with
        | Some (l, s') => Some (with_thr s' (upd t (l ++ K) (v_thr s)))
        | None => None
        end
    | _ => None
    end.

  Fixpoint run (sched : list nat) (s : st) : st :=
    match sched with
    | [] => s
    | t :: r => run r (match step t s with Some s' => s' | None => s end)
    end.

  (** Every thread starts with one clone (or more, which is the same, see [OPart]). *)
  Definition init (progs : list (list op)) : st :=
    mkSt None false [] false false 0 (length progs) false false [] (map (map KOp) progs).
End Model.
