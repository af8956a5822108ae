(** The publish subject used by any number of threads. No proofs in this file.

    crates/rx_core_subject_publish/src/publish_subject.rs, multicast.rs and multicast_subscription.rs.
    A thread is a stack of commands; a step of a thread is what it does between two accesses to
    shared memory that others can see. The mutex of the deferred state is only held for such an
    instant, so it is not modelled; that of the table of subscribers is: with it goes what its
    holder still has to do while it holds it. Scheduling is arbitrary, and so is the order in which
    the subscribers in the table (a HashMap) are told.
    Simplified: the destinations do not call back (see SubjectModel.v for those that do, with one
    thread), and being told something is one step; a destination subscribes once, and its number is
    also its id; the subject is not dropped. What a panicking thread carries is lost with it.
    The [debug_assert] of subscriber_state.rs:160-163 is a flag. *)
From Verif Require Import Base SubscrModel.
Set Implicit Arguments.

Section Conc.
Variables V E : Type.
(** A value, with the thread that pushes it (which is not in the code). *)
Definition item : Type := nat * V.
Notation call := (ncall item E).

(** What a thread can do with its clone of the subject, or with a subscription. *)
Inductive op : Type :=
| ONext (v : V) | OErr (e : E) | OCmp
| OUns                  (* unsubscribes the subject *)
| OSub (s : nat)        (* subscribes the destination s, which keeps the subscription *)
| OLeave (s : nat).     (* unsubscribes or drops the subscription of s, if there is one *)

(** multicast_notification.rs:8-26 *)
Inductive note : Type := NCall (c : call) | NOff (s : nat) | NAdd (s : nat).

Inductive cmd : Type :=
| KOp (o : op)
| KNext (v : V) | KErr (e : E) | KErrSet (e : E) | KCmp | KCmpSet | KUns
| KEnd (s : nat)        (* subscribe: the end the subject has seen *)
| KSub (s : nat)        (* ... is it closed? *)
| KHave (s : nat)       (* ... the subscription is returned *)
| KLeave (s : nat)      (* MulticastSubscription::unsubscribe: is it closed? *)
| KTry (n : note)       (* try_next and so on: try_lock *)
| KDefer (n : note)     (* defer_notification *)
| KApply                (* try_apply_deferred: is it dirty? *)
| KApplyLock.           (* ... it was: try_lock *)

(** What the holder of the table's mutex has to do. *)
Inductive icmd : Type :=
| IQueue (d : nat)               (* apply_notification_queue, round d *)
| INotes (l : list note)         (* the rest of the notifications of this round *)
| IClean
| ITell (c : call) (l : list nat)   (* the rest of the subscribers to be told *)
| IDrain                         (* Subscribers::unsubscribe *)
| IFlag.                         (* closed_flag.close() *)
(** Free; held by [t], which first does [l], then [now] (unless it was only to apply the queue), and
    then releases it; poisoned. *)
Inductive lock : Type := Free | Held (t : nat) (l : list icmd) (now : option note) | Poisoned.

(** A destination: what it was told, and whether it is closed. *)
Record dest : Type := mkD { d_told : list call; d_closed : bool }.

Record st : Type := mkSt {
  v_lock : lock;
  v_table : list nat;           (* multicast.rs:28 *)
  v_q : list note;              (* :296 deferred_notifications_queue *)
  v_flag : bool;                (* :300 closed_flag *)
  v_cmp : bool;                 (* :302 observed_state *)
  v_uns : bool;
  v_err : option E;             (* :305 observed_error *)
  v_dest : nat -> dest;
  v_used : nat -> bool;         (* has begun to subscribe *)
  v_had : nat -> bool;          (* its subscription was returned *)
  v_left : nat -> bool;         (* ... and unsubscribed or dropped *)
  v_from : nat -> option nat;   (* not in the code: the length of v_log when it was put into the table *)
  v_log : list call;            (* not in the code: what the subscribers in the table were told *)
  v_debug : bool;               (* a debug_assert failed *)
  v_thr : list (list cmd)
}.

Definition upd {X} (f : nat -> X) (i : nat) (x : X) : nat -> X := fun j => if j =? i then x else f j.
Definition with_lock x s := mkSt x (v_table s) (v_q s) (v_flag s) (v_cmp s) (v_uns s) (v_err s) (v_dest s) (v_used s) (v_had s) (v_left s) (v_from s) (v_log s) (v_debug s) (v_thr s).
Definition with_table x s := mkSt (v_lock s) x (v_q s) (v_flag s) (v_cmp s) (v_uns s) (v_err s) (v_dest s) (v_used s) (v_had s) (v_left s) (v_from s) (v_log s) (v_debug s) (v_thr s).
Definition with_q x s := mkSt (v_lock s) (v_table s) x (v_flag s) (v_cmp s) (v_uns s) (v_err s) (v_dest s) (v_used s) (v_had s) (v_left s) (v_from s) (v_log s) (v_debug s) (v_thr s).
Definition with_flag s := mkSt (v_lock s) (v_table s) (v_q s) true (v_cmp s) (v_uns s) (v_err s) (v_dest s) (v_used s) (v_had s) (v_left s) (v_from s) (v_log s) (v_debug s) (v_thr s).
Definition with_ends c u e s := mkSt (v_lock s) (v_table s) (v_q s) (v_flag s) c u e (v_dest s) (v_used s) (v_had s) (v_left s) (v_from s) (v_log s) (v_debug s) (v_thr s).
Definition with_dest x s := mkSt (v_lock s) (v_table s) (v_q s) (v_flag s) (v_cmp s) (v_uns s) (v_err s) x (v_used s) (v_had s) (v_left s) (v_from s) (v_log s) (v_debug s) (v_thr s).
Definition with_used x s := mkSt (v_lock s) (v_table s) (v_q s) (v_flag s) (v_cmp s) (v_uns s) (v_err s) (v_dest s) x (v_had s) (v_left s) (v_from s) (v_log s) (v_debug s) (v_thr s).
Definition with_had x s := mkSt (v_lock s) (v_table s) (v_q s) (v_flag s) (v_cmp s) (v_uns s) (v_err s) (v_dest s) (v_used s) x (v_left s) (v_from s) (v_log s) (v_debug s) (v_thr s).
Definition with_left x s := mkSt (v_lock s) (v_table s) (v_q s) (v_flag s) (v_cmp s) (v_uns s) (v_err s) (v_dest s) (v_used s) (v_had s) x (v_from s) (v_log s) (v_debug s) (v_thr s).
Definition with_from x s := mkSt (v_lock s) (v_table s) (v_q s) (v_flag s) (v_cmp s) (v_uns s) (v_err s) (v_dest s) (v_used s) (v_had s) (v_left s) x (v_log s) (v_debug s) (v_thr s).
Definition with_log c s := mkSt (v_lock s) (v_table s) (v_q s) (v_flag s) (v_cmp s) (v_uns s) (v_err s) (v_dest s) (v_used s) (v_had s) (v_left s) (v_from s) (v_log s ++ [c]) (v_debug s) (v_thr s).
Definition with_debug s := mkSt (v_lock s) (v_table s) (v_q s) (v_flag s) (v_cmp s) (v_uns s) (v_err s) (v_dest s) (v_used s) (v_had s) (v_left s) (v_from s) (v_log s) true (v_thr s).
Definition with_thr x s := mkSt (v_lock s) (v_table s) (v_q s) (v_flag s) (v_cmp s) (v_uns s) (v_err s) (v_dest s) (v_used s) (v_had s) (v_left s) (v_from s) (v_log s) (v_debug s) x.

Definition seen_error (s : st) : bool := match v_err s with Some _ => true | None => false end.
(** multicast.rs:347-352, publish_subject.rs:250-252 *)
Definition is_closed (s : st) : bool := v_flag s || v_cmp s || v_uns s || seen_error s.

(** Whether a destination closes itself, depending on what it was told. *)
Variable shuts : nat -> list call -> bool.
Definition ends (c : call) : bool := match c with Nxt _ => false | _ => true end.
Definition closed (s : nat) (w : st) : bool := d_closed (v_dest w s).
(** Telling a destination that is not closed; all the callers look first. *)
Definition tell (s : nat) (c : call) (w : st) : st :=
  if closed s w then w
  else let l := d_told (v_dest w s) ++ [c] in
       with_dest (upd (v_dest w) s (mkD l (ends c || shuts s l))) w.

(** Putting into and removing from the table. *)
Definition put (s : nat) (w : st) : st :=                          (* multicast.rs:42-48 *)
  with_from (upd (v_from w) s (Some (length (v_log w))))
    (with_table (if existsb (Nat.eqb s) (v_table w) then v_table w else v_table w ++ [s]) w).
Definition off (s : nat) (w : st) : st :=                          (* :95-101 *)
  if existsb (Nat.eqb s) (v_table w)
  then tell s Uns (with_table (filter (fun x => negb (x =? s)) (v_table w)) w)
  else w.

(** One step of the holder; [k] chooses who is told next. *)
Definition remove_nth (k : nat) (l : list nat) : list nat := firstn k l ++ skipn (S k) l.
Definition inner (k : nat) (c : icmd) (w : st) : list icmd * st :=
  match c with
  | IQueue d =>                                                    (* :136-155; d = 10 is a panic, see [step] *)
      match v_q w with
      | [] => ([], w)
      | q => ([INotes q; IClean; IQueue (S d)], with_q [] w)
      end
  | INotes [] => ([], w)
  | INotes (NAdd s :: ns) =>                                       (* :161-171, :182-184 *)
      ([INotes ns],
       if closed s w then w else if v_flag w then tell s Uns w else put s w)
  | INotes (NOff s :: ns) => ([INotes ns], if v_flag w then w else off s w)
  | INotes (NCall Uns :: ns) => ((if v_flag w then [] else [IDrain]) ++ [IFlag; INotes ns], w)
  | INotes (NCall c :: ns) =>                                      (* :182-192 *)
      let rest := if ends c then [IDrain; IFlag; INotes ns] else [INotes ns] in
      if v_flag w then (rest, w) else (ITell c (v_table w) :: rest, with_log c w)
  | IClean => ([], with_table (filter (fun s => negb (closed s w)) (v_table w)) w)   (* :37-40 *)
  | ITell _ [] => ([], w)
  | ITell c l =>                                                   (* :63-93 *)
      let k := k mod length l in
      ([ITell c (remove_nth k l)], tell (nth k l 0) c w)
  | IDrain => ([ITell Uns (v_table w)], with_table [] (with_log Uns w))
  | IFlag => ([], with_flag w)
  end.
(** After the queue: :199-287. *)
Definition do_now (n : note) (w : st) : list icmd * st :=
  match n with
  | NCall Uns => ([IDrain], with_flag w)                           (* :263-265 *)
  | NCall c => ([ITell c (v_table w)], with_log c w)
  | NOff s => ([], off s w)
  | NAdd s => ([], put s w)
  end.

(** :313-329 [defer_notification]. The observed state is unsubscribed before an unsubscription is
    deferred. *)
Definition defer (n : note) (w : st) : st :=
  if v_flag w then match n with NAdd s => tell s Uns w | _ => w end
  else with_q (v_q w ++ [n]) w.

(** One step of thread [t] that does not hold the table. *)
Definition outer (t : nat) (c : cmd) (w : st) : list cmd * st :=
  match c with
  | KOp (ONext v) => ([KNext v; KApply], w)                        (* publish_subject.rs:172-182 *)
  | KOp (OErr e) => ([KErr e; KApply], w)                          (* :184-196 *)
  | KOp OCmp => ([KCmp; KApply], w)                                (* :198-213 *)
  | KOp OUns => ([KUns; KApply], w)                                (* :254-269 *)
  | KOp (OSub s) =>                                                (* :108-164 *)
      if v_used w s then ([], w) else ([KApply; KEnd s], with_used (upd (v_used w) s true) w)
  | KOp (OLeave s) =>                                              (* multicast_subscription.rs:82-93, :110-118 *)
      if v_had w s && negb (v_left w s) then ([KLeave s], with_left (upd (v_left w) s true) w) else ([], w)
  | KNext v => (if is_closed w then [] else [KTry (NCall (Nxt (t, v)))], w)
  | KErr e => (if is_closed w then [] else [KErrSet e], w)
  | KErrSet e => ([KTry (NCall (Err e))], with_ends (v_cmp w) (v_uns w) (Some e) w)
  | KCmp => (if is_closed w then [] else [KCmpSet], w)
  | KCmpSet => ([KTry (NCall Cmp)],
      with_ends true (v_uns w) (v_err w) (if v_cmp w || v_uns w then with_debug w else w))
  | KUns => (if v_uns w then [] else [KTry (NCall Uns)], with_ends (v_cmp w) true (v_err w) w)
  | KEnd s =>                                                      (* publish_subject.rs:120-127 *)
      ([KSub s], match v_err w with
                 | Some e => tell s (Err e) w
                 | None => if v_cmp w then tell s Cmp w else w
                 end)
  | KSub s =>                                                      (* :129-163 *)
      if is_closed w then ([KHave s], tell s Uns w) else ([KTry (NAdd s); KApply; KHave s], w)
  | KHave s => ([], with_had (upd (v_had w) s true) w)
  | KLeave s => (if closed s w then [] else [KTry (NOff s)], w)    (* multicast_subscription.rs:57-66, :83-91 *)
  | KTry n =>                                                      (* multicast.rs:205-287: try_lock *)
      match v_lock w with
      | Free => ([], with_lock (Held t [IQueue 0] (Some n)) w)
      | _ => ([KDefer n], w)
      end
  | KDefer n => ([], defer n w)
  | KApply => (match v_q w with [] => [] | _ => [KApplyLock] end, w)     (* publish_subject.rs:74-83 *)
  | KApplyLock =>
      match v_lock w with
      | Free => ([], with_lock (Held t [IQueue 0] None) w)
      | _ => ([], w)
      end
  end.

Fixpoint set_nth {X} (n : nat) (x : X) (l : list X) {struct l} : list X :=
  match l with
  | [] => []
  | y :: l' => match n with O => x :: l' | S n' => y :: set_nth n' x l' end
  end.
Definition max_depth : nat := 10.                                  (* multicast.rs:18 *)
Definition go_outer (t : nat) (w : st) : st :=
  match nth t (v_thr w) [] with
  | [] => w
  | c :: cs => let '(cs', w') := outer t c w in with_thr (set_nth t (cs' ++ cs) (v_thr w)) w'
  end.
Definition go_inner (t k : nat) (l : list icmd) (now : option note) (w : st) : st :=
  match l, now with
  | IQueue d :: l', _ =>
      if d =? max_depth then with_thr (set_nth t [] (v_thr w)) (with_lock Poisoned w)   (* multicast.rs:141-145 *)
      else let '(is, w') := inner k (IQueue d) w in with_lock (Held t (is ++ l') now) w'
  | i :: l', _ => let '(is, w') := inner k i w in with_lock (Held t (is ++ l') now) w'
  | [], Some n => let '(is, w') := do_now n w in with_lock (Held t is None) w'
  | [], None => with_lock Free w
  end.
(** One step of thread [t]. *)
Definition step (w : st) (tk : nat * nat) : st :=
  let (t, k) := tk in
  match v_lock w with
  | Held t' l now => if t' =? t then go_inner t k l now w else go_outer t w
  | _ => go_outer t w
  end.
Definition run (ts : list (nat * nat)) (w : st) : st := fold_left step ts w.

(** The threads are about to run their programs. *)
Definition start (progs : list (list op)) : st :=
  mkSt Free [] [] false false false None (fun _ => mkD [] false) (fun _ => false) (fun _ => false) (fun _ => false)
    (fun _ => None) [] false (map (map KOp) progs).
End Conc.
Arguments ONext {V E}. Arguments OErr {V E}. Arguments OCmp {V E}. Arguments OUns {V E}.
Arguments OSub {V E}. Arguments OLeave {V E}.
Arguments Free {V E}. Arguments Poisoned {V E}.
