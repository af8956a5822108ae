(** What becomes of a destination that panics behind a lock: [Arc<Mutex>], [Weak<Mutex>] and
    [Arc<RwLock>] as subscribers, and SharedSubscriber. rx_core_common/src/subscribers.
    No proofs in this file. *)
From Verif Require Import Base.
Set Implicit Arguments.

(** RxObserver's signals, observer.rs. *)
Inductive sig (A E : Type) : Type := GNext (a : A) | GError (e : E) | GDone.
Arguments GNext {A E} a.
Arguments GError {A E} e.
Arguments GDone {A E}.

Section Panic.
Variables A E : Type.
Notation call := (sig A E).
(** The observer panics on being told the last of these calls. *)
Variable boom : list call -> bool.
(** The teardown panics when executed. *)
Variable tboom : nat -> bool.

(** The destination: an ObserverSubscriber (subscriber_observer.rs:11-86) with its
    SubscriptionData (subscription_data.rs:18-90). [d_ran]: the teardowns executed. *)
Record dest : Type := mkDest {
  d_told : list call;
  d_closed : bool;
  d_fin : list nat;
  d_ran : list nat
}.
Definition dest0 : dest := mkDest [] false [] [].

(** Every operation says whether it panicked, and leaves the state as it is then. *)
Definition exec (t : nat) (d : dest) : dest * bool :=
  (mkDest (d_told d) (d_closed d) (d_fin d) (d_ran d ++ [t]), tboom t).
(** subscription_data.rs:52-60: dropping the iterator [drain(..)] on the way out of a panic drops
    the teardowns it has not got to; they are not executed. *)
Fixpoint exec_all (l : list nat) (d : dest) : dest * bool :=
  match l with
  | [] => (d, false)
  | t :: l' => let '(d1, p) := exec t d in if p then (d1, true) else exec_all l' d1
  end.
Definition unsub (d : dest) : dest * bool :=
  if d_closed d then (d, false) else exec_all (d_fin d) (mkDest (d_told d) true [] (d_ran d)).
(** subscription_data.rs:64-72. *)
Definition add (t : nat) (d : dest) : dest * bool :=
  if d_closed d then exec t d else (mkDest (d_told d) false (d_fin d ++ [t]) (d_ran d), false).
(** subscriber_observer.rs:39-60. *)
Definition tell (c : call) (d : dest) : dest * bool :=
  if d_closed d then (d, false)
  else
    let l := d_told d ++ [c] in
    let d1 := mkDest l false (d_fin d) (d_ran d) in
    if boom l then (d1, true)
    else match c with GNext _ => (d1, false) | _ => unsub d1 end.

(** *** The lock. A panic while it is held poisons it for good. *)
Record lock : Type := mkLock { l_dest : dest; l_poison : bool }.
Definition under (f : dest -> dest * bool) (m : lock) : lock * bool :=
  let '(d, p) := f (l_dest m) in (mkLock d (l_poison m || p), p).

Inductive op : Type :=
| OTell (c : call)      (* next, error, complete *)
| OUnsub
| OAdd (t : nat).
(** subscriber_arc_mutex.rs:51-110; the same in subscriber_arc_rw_lock.rs:52-109. *)
Definition arc_op (o : op) (m : lock) : lock * bool :=
  match o with
  | OTell c => if l_poison m then under unsub m else under (tell c) m
  | OUnsub => under unsub m
  | OAdd t => if l_poison m
              then under (fun d => let '(d1, p) := exec t d in if p then (d1, true) else unsub d1) m
              else under (add t) m
  end.

(** *** Histories of calls on the clones, by any thread: every call holds the lock
    throughout. The panics are caught. *)
Record arcs : Type := mkArcs { a_lock : lock; a_alive : bool; a_panics : nat }.
Definition arcs0 : arcs := mkArcs (mkLock dest0 false) true 0.
Inductive hop : Type :=
| HArc (o : op)
| HWeak (o : op)       (* subscriber_arc_weak_mutex.rs:54-146 *)
| HDrop.               (* the last [Arc] is dropped, and so the destination: subscription_data.rs:84-90 *)
Definition count (p : bool) (n : nat) : nat := if p then S n else n.
Definition hstep (s : arcs) (h : hop) : arcs :=
  if a_alive s then
    match h with
    | HArc o | HWeak o => let '(m, p) := arc_op o (a_lock s) in mkArcs m true (count p (a_panics s))
    | HDrop => let '(d, p) := unsub (l_dest (a_lock s)) in
               mkArcs (mkLock d (l_poison (a_lock s))) false (count p (a_panics s))
    end
  else
    match h with
    | HWeak (OAdd t) => let '(d, p) := exec t (l_dest (a_lock s)) in
                        mkArcs (mkLock d (l_poison (a_lock s))) false (count p (a_panics s))
    | _ => s
    end.
Definition hsteps (s : arcs) (h : list hop) : arcs := fold_left hstep h s.

(** *** SharedSubscriber, one thread; the destination does not call back. *)
Inductive snote : Type := NTell (c : call) | NUns.
Record sh : Type := mkSh {
  s_lock : lock;
  s_queue : list snote;
  s_flag : bool;          (* closed_flag *)
  s_unsub : bool;         (* observed_unsubscribe *)
  s_ended : bool;         (* observed_completion or observed_error *)
  s_alive : bool;
  s_panics : nat;
  s_dirty : bool          (* the debug_assert of subscriber_shared.rs:105 failed *)
}.
Definition sh0 : sh := mkSh (mkLock dest0 false) [] false false false true 0 false.
Definition set_lock (s : sh) m p := mkSh m (s_queue s) (s_flag s) (s_unsub s) (s_ended s) (s_alive s) (count p (s_panics s)) (s_dirty s).
Definition set_queue (s : sh) q := mkSh (s_lock s) q (s_flag s) (s_unsub s) (s_ended s) (s_alive s) (s_panics s) (s_dirty s).
Definition set_flag (s : sh) := mkSh (s_lock s) (s_queue s) true (s_unsub s) (s_ended s) (s_alive s) (s_panics s) (s_dirty s).
Definition set_unsub (s : sh) := mkSh (s_lock s) (s_queue s) (s_flag s) true (s_ended s) (s_alive s) (s_panics s) (s_dirty s).
Definition set_ended (s : sh) := mkSh (s_lock s) (s_queue s) (s_flag s) (s_unsub s) true (s_alive s) (s_panics s) (s_dirty s).
Definition set_dead (s : sh) := mkSh (s_lock s) (s_queue s) (s_flag s) (s_unsub s) (s_ended s) false (s_panics s) (s_dirty s || match s_queue s with [] => false | _ => true end).

(** A step that may panic; the rest is then not done. *)
Definition act : Type := sh -> sh * bool.
Definition andthen (f g : act) : act := fun s => let '(s1, p) := f s in if p then (s1, true) else g s1.
Definition on_dest (f : dest -> dest * bool) : act := fun s => let '(m, p) := under f (s_lock s) in (set_lock s m p, p).
Definition pure (f : sh -> sh) : act := fun s => (f s, false).
Definition closing (n : snote) : bool := match n with NTell (GNext _) => false | _ => true end.
(** subscriber_shared.rs:193-241. There is one round at most: nothing is deferred meanwhile. *)
Fixpoint apply_notes (l : list snote) : act := fun s =>
  match l with
  | [] => (s, false)
  | n :: l' =>
      andthen (fun s => if s_flag s then (s, false)
                        else match n with NTell c => on_dest (tell c) s | NUns => on_dest unsub s end)
        (andthen (pure (fun s => if closing n then set_flag s else s)) (apply_notes l')) s
  end.
Definition apply_queue : act := fun s => apply_notes (s_queue s) (set_queue s []).
(** :181-190; [try_lock] fails if the lock is poisoned. *)
Definition try_apply : act := fun s =>
  match s_queue s with
  | [] => (s, false)
  | _ => if l_poison (s_lock s) then (s, false) else apply_queue s
  end.
(** :57-68; [observed_unsubscribe] is set by now. *)
Definition defer (n : snote) (s : sh) : sh := if s_flag s then s else set_queue s (s_queue s ++ [n]).
(** :361-368 *)
Definition is_closed (s : sh) : bool :=
  s_flag s || s_ended s || s_unsub s || (if l_poison (s_lock s) then false else d_closed (l_dest (s_lock s))).

(** :244-302 [try_next], [try_error], [try_complete], [try_unsubscribe], then deferring on failure. *)
Definition attempt (f : act) (n : snote) : act := fun s =>
  if l_poison (s_lock s) then (defer n s, false) else andthen apply_queue f s.
(** :316-355 and :370-385. *)
Definition sh_op (o : op) : act :=
  match o with
  | OTell c => andthen
      (fun s => if is_closed s then (s, false)
                else attempt (on_dest (tell c)) (NTell c) (match c with GNext _ => s | _ => set_ended s end)) try_apply
  | OUnsub => andthen
      (fun s => if s_unsub s then (s, false)
                else attempt (andthen (pure set_flag) (on_dest unsub)) NUns (set_unsub s)) try_apply
  | OAdd t => fun s => let '(m, p) := arc_op (OAdd t) (s_lock s) in (set_lock s m p, p)
  end.
Inductive sop : Type := SOp (o : op) | SDrop.
(** :416-424 and the drop of the fields, the destination first. *)
Definition sstep (s : sh) (h : sop) : sh :=
  if s_alive s then
    match h with
    | SOp o => fst (sh_op o s)
    | SDrop => let '(s1, p) := try_apply s in
               let '(d, p2) := unsub (l_dest (s_lock s1)) in
               set_dead (set_lock s1 (mkLock d (l_poison (s_lock s1))) p2)
    end
  else s.
Definition ssteps (s : sh) (h : list sop) : sh := fold_left sstep h s.
End Panic.
Arguments HArc {A E} o.
Arguments HWeak {A E} o.
Arguments HDrop {A E}.
Arguments OTell {A E} c.
Arguments OUnsub {A E}.
Arguments OAdd {A E} t.
Arguments SOp {A E} o.
Arguments SDrop {A E}.
Arguments NTell {A E} c.
Arguments NUns {A E}.
Arguments dest0 {A E}.
Arguments arcs0 {A E}.
Arguments sh0 {A E}.
