(** Subscribers of a subject that panic: the functions of SubjectModel.v, in which a subscriber may
    panic after it made its calls. [boom i h] says whether subscriber [i] panics when its events are
    [h] including this one. The panic unwinds through the call that was made on the subject from
    outside; it is caught there, or ended the thread of the caller. If it passed the table of
    subscribers while that was locked, the mutex of the table is poisoned; nothing clears that poison,
    and every later try_lock() on it gives an error (multicast.rs:205, :218, :234, :247, :259, :277,
    publish_subject.rs:76). The mutexes of the deferred state and of the stored values are locked
    ignoring poison. No proofs in this file. *)
From Verif Require Import Base SubjectModel.
Set Implicit Arguments.

Section Calls.
Context {A E X : Type}.
Context (prog : nat -> list (sev A E) -> list (ucmd A E) * bool).
Context (boom : nat -> list (sev A E) -> bool).
Notation subject := (subject A E X).
Implicit Types s : subject.

(** [greet]; [at_] is the subscriber whose callback is running with the table locked, if any. A new
    subscriber that panics while it is given the stored values is dropped, which unsubscribes it. *)
Definition pgreet (at_ : option nat) s (i : nat) (r : list A) : subject :=
  fold_left (fun s a =>
    if running s && negb (sj_shut s i) then
      let p := prog i (history s i ++ [SN a]) in
      match fst p with
      | [] =>
          if boom i (history s i ++ [SN a])
          then with_halt (with_event (with_event s i (SN a) (snd p)) i SU true) (HThrow at_)
          else with_event s i (SN a) (snd p)
      | _ => with_halt s HNested
      end
    else s) r s.

(** [reject] *)
Definition preject (at_ : option nat) s (i : nat) : subject :=
  if running s && negb (sj_shut s i) then
    let e := match sj_err s, sj_cmp s with
             | Some e, _ => SE e
             | None, true => SC
             | None, false => SU
             end in
    let s2 := with_event s i e true in
    let s3 := if boom i (history s i ++ [e]) then with_halt s2 (HThrow at_) else s2 in
    match e, fst (prog i (history s i ++ [e])) with
    | SU, _ => s3
    | _, [] => s3
    | _, _ => with_halt s2 HDeadlock
    end
  else s.

(** [inner_call]: the table cannot be locked. Subscriber [me] is the one whose mutex cannot be locked
    either. *)
Definition pinner_call (at_ : option nat) (me : nat) s (c : cmd A E) : subject :=
  if running s then
    let s := with_made s c in
    match c with
    | KNext a => if sj_closed s then s else mdefer s (MNext a)
    | KErr e => if sj_closed s then s
                else mdefer (with_obs s (sj_cmp s) (sj_uns s) (Some e)) (MErr e)
    | KCmp => if sj_closed s then s
              else mdefer (with_obs s true (sj_uns s) (sj_err s)) MCmp
    | KUns => if sj_uns s then s
              else mdefer (with_obs s (sj_cmp s) true (sj_err s)) MUns
    | KSub r =>
        let i := sj_next_id s in
        let s := pgreet at_ (with_id s (S i)) i r in
        if running s then
          if sj_closed s then preject at_ (with_taken s i) i else mdefer s (MAdd i)
        else s
    | KOff i =>
        if negb (Nat.eqb i me) && sj_shut s i || sj_taken s i || negb (i <? sj_next_id s) then s
        else mdefer (with_taken s i) (MOff i)
    end
  else s.
End Calls.

Section Subject.
Context {A E : Type}.
Context (prog : nat -> list (sev A E) -> list (ucmd A E) * bool).
Context (boom : nat -> list (sev A E) -> bool).
Context (ord : nat -> list nat -> list nat).
Context (P : policy A E).
Notation subject := (subject A E (po_store P)).
Implicit Types s : subject.

Definition pinner_user (at_ : option nat) (me : nat) s (u : ucmd A E) : subject :=
  if running s then
    let x := po_keep P (sj_store s) u in
    let errored := match sj_err s with Some _ => true | None => false end in
    fold_left (pinner_call prog boom at_ me) (po_calls P x (sj_closed s) errored u) (with_user s x u)
  else s.

Definition ptell s (i : nat) (e : sev A E) : subject :=
  if running s && negb (sj_shut s i) then
    let r := prog i (history s i ++ [e]) in
    let s1 := fold_left (pinner_user (Some i) i) (fst r) (with_event s i e (ends e || snd r)) in
    if running s1 && boom i (history s i ++ [e]) then with_halt s1 (HThrow (Some i)) else s1
  else s.

Definition pbroadcast s (e : sev A E) : subject :=
  fold_left (fun s i => ptell s i e) (ord (sj_iter s) (sj_tbl s)) (with_iter s).

(** Unsubscribing drains the table (multicast.rs:88), which empties it also if a panic comes
    in between. *)
Definition pmapply s (m : mnot A E) : subject :=
  match m with
  | MNext a => pbroadcast s (SN a)
  | MErr e => pbroadcast s (SE e)
  | MCmp => pbroadcast s SC
  | MUns => with_tbl (pbroadcast s SU) []
  | MOff i =>
      if existsb (Nat.eqb i) (sj_tbl s)
      then ptell (with_tbl s (remove_id i (sj_tbl s))) i SU
      else s
  | MAdd i => with_tbl s (sj_tbl s ++ [i])
  end.

Definition pmapply_one s (m : mnot A E) : subject :=
  if running s then
    match m with
    | MAdd i =>
        if sj_shut s i then s
        else if sj_flag s then ptell s i SU
        else pmapply s m
    | _ =>
        let s := if sj_flag s then s else pmapply s m in
        if running s then
          let s := if is_terminal m then pmapply s MUns else s in
          if running s then if is_unsub m || is_terminal m then with_flag s else s else s
        else s
    end
  else s.

(** What is left of the notifications drained from the queue is dropped with the panic. *)
Fixpoint pmapply_queue (left : nat) s : subject :=
  if running s then
    match left with
    | 0 => with_halt s HPanic
    | S left' =>
        match sj_queue s with
        | [] => s
        | ms => let s := fold_left pmapply_one ms (with_queue s []) in
                if running s then pmapply_queue left' (clean P s) else s
        end
    end
  else s.

Definition pmtry_apply s : subject :=
  match sj_queue s with [] => s | _ => pmapply_queue mdepth s end.

Definition pouter_call s (c : cmd A E) : subject :=
  if running s then
    match c with
    | KNext a =>
        let s := with_made s c in
        pmtry_apply (if sj_closed s then s
                     else let s := pmapply_queue mdepth s in
                          if running s then pmapply s (MNext a) else s)
    | KErr e =>
        let s := with_made s c in
        pmtry_apply (if sj_closed s then s
                     else let s := with_obs s (sj_cmp s) (sj_uns s) (Some e) in
                          let s := pmapply_queue mdepth s in
                          if running s then pmapply s (MErr e) else s)
    | KCmp =>
        let s := with_made s c in
        pmtry_apply (if sj_closed s then s
                     else let s := with_obs s true (sj_uns s) (sj_err s) in
                          let s := pmapply_queue mdepth s in
                          if running s then pmapply s MCmp else s)
    | KUns =>
        let s := with_made s c in
        pmtry_apply (if sj_uns s then s
                     else let s := with_obs s (sj_cmp s) true (sj_err s) in
                          let s := pmapply_queue mdepth s in
                          if running s then pmapply (with_flag s) MUns else s)
    | KSub r =>
        let s := with_made s c in
        let i := sj_next_id s in
        let s := pgreet prog boom None (with_id s (S i)) i r in
        let s :=
          if running s then
            let s := pmtry_apply s in
            if running s then
              if sj_closed s then preject prog boom None (with_taken s i) i
              else let s := pmapply_queue mdepth s in
                   if running s then pmtry_apply (pmapply s (MAdd i)) else s
            else s
          else s in
        if running s then s else with_taken s i      (* no subscription is returned *)
    | KOff i =>
        let s := with_made s c in
        if sj_shut s i || sj_taken s i || negb (i <? sj_next_id s) then s
        else let s := pmapply_queue mdepth (with_taken s i) in
             if running s then pmapply s (MOff i) else s
    end
  else s.

Definition pouter_user s (u : ucmd A E) : subject :=
  if running s then
    let x := po_keep P (sj_store s) u in
    let errored := match sj_err s with Some _ => true | None => false end in
    fold_left pouter_call (po_calls P x (sj_closed s) errored u) (with_user s x u)
  else s.

(** The subject between calls: a panic was caught, and the table is poisoned or not; if it is,
    the subscriber that panicked, whose mutex is poisoned too, if it was one (and not the depth limit). *)
Record psubject : Type := mkPsubject { ps_subject : subject; ps_poison : option (option nat) }.

Definition resumed s : subject :=
  {| sj_next_id := sj_next_id s; sj_tbl := sj_tbl s; sj_shut := sj_shut s; sj_taken := sj_taken s;
     sj_queue := sj_queue s; sj_flag := sj_flag s; sj_cmp := sj_cmp s; sj_uns := sj_uns s;
     sj_err := sj_err s; sj_iter := sj_iter s; sj_store := sj_store s;
     sj_user := sj_user s; sj_made := sj_made s; sj_log := sj_log s;
     sj_halt := None |}.

(** The subscribers of which nothing is left in the table, in the queue, or in the hands of the
    users are dropped, and unsubscribed by that. Simplified: the calls that their teardowns make are left
    out. *)
Definition stuck s (i : nat) : bool :=
  existsb (Nat.eqb i) (sj_tbl s) ||
  existsb (fun m => match m with MAdd j => Nat.eqb i j | _ => false end) (sj_queue s).
Definition sweep s : subject :=
  fold_left (fun s i => if sj_shut s i || stuck s i || negb (sj_taken s i) then s else with_event s i SU true)
    (seq 0 (sj_next_id s)) s.

Definition caught (poison : option (option nat)) s : psubject :=
  match sj_halt s with
  | Some (HThrow (Some p)) => mkPsubject (sweep (resumed s)) (Some (Some p))
  | Some (HThrow None) => mkPsubject (sweep (resumed s)) poison
  | Some HPanic => mkPsubject (sweep (resumed s)) (Some None)
  | _ => mkPsubject (if poison then sweep s else s) poison
  end.

(** A call from outside. With the table poisoned it takes the way of calls that find it locked; in
    particular unsubscribing a subscription queues a notification and lets go of the subscriber
    (multicast_subscription.rs:82-93). *)
Definition pcall (t : psubject) (u : ucmd A E) : psubject :=
  let s := ps_subject t in
  match ps_poison t with
  | None => caught None (pouter_user s u)
  | Some p =>
      caught (Some p) (pinner_user None (match p with Some i => i | None => sj_next_id s end) s u)
  end.
Definition pcalls (t : psubject) (us : list (ucmd A E)) : psubject := fold_left pcall us t.
Definition pnew : psubject := mkPsubject (sj_new P) None.

(** The last clone of the subject and the last subscription are dropped: every subscriber that is
    not closed is dropped, and unsubscribed by that (publish_subject.rs:289-299 and
    multicast_subscription.rs:110-118 do not reach it). One that panicked over an error or a
    completion executes its teardowns now. *)
Definition dropped (t : psubject) : subject :=
  fold_left (fun s i => if sj_shut s i then s else with_event s i SU true)
    (seq 0 (sj_next_id (ps_subject t))) (ps_subject t).
End Subject.
