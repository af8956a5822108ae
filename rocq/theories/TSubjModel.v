(** The subject that every test of an operator uses as its source:
    crates/rx_core_testing/src/harness/test_subject.rs. No proofs in this file.
    Its destinations do not call back into the subject or their subscription: the subject holds its mutex
    during every call (:42-46, :52-56, :61-65, :85-89; the guard lives to the end of the statement), so that
    a destination which uses the subject, for instance to subscribe again, blocks forever. No call panics
    inside the destination, so that no lock is poisoned. The destinations are of one type [D] but may begin
    in different states; what their construction makes visible is left out. *)
From Verif Require Import Base SubscrModel.
Set Implicit Arguments.

Section TestSubject.
  Context {X I E : Type}.
  Variable D : subscriber X I E.

  (** A SharedSubscriber that is never called while it is being called, crates/rx_core_common/src/subscribers/subscriber_shared.rs:
      the queue is always empty, and [closed_flag] is only set by try_unsubscribe (:296), right after
      [observed_unsubscribe] (:381), so that the two are one flag here. There are two clones: the one in the
      subject (test_subject.rs:112-114) and the one in the NotifiableSubscription (:116, :123-130). Inside is
      an ErasedSubscriber, subscriber_erased.rs:11-22, which passes every call on. *)
  Record session : Type := mkSession {
    s_ended : bool;      (* observed_completion or observed_error *)
    s_unsub : bool;      (* observed_unsubscribe *)
    s_dst : st D;
    s_subj : bool;       (* the subject has its clone *)
    s_user : bool        (* the subscription is there *)
  }.
  Definition is_closed (s : session) : bool := s_ended s || s_unsub s || closed D (s_dst s).   (* :368-375, :88-93 *)
  Definition on_dst (c : call I E) (s : session) : session * list (ev X) :=
    let '(d, w) := step D (s_dst s) c in (mkSession (s_ended s) (s_unsub s) d (s_subj s) (s_user s), w).
  Definition note (n : ncall I E) (s : session) : session * list (ev X) :=
    match n with
    | Nxt _ => if is_closed s then (s, []) else on_dst (CN n) s                                (* :325-335 *)
    | Err _ | Cmp =>                                                                           (* :337-361 *)
        if is_closed s then (s, []) else on_dst (CN n) (mkSession true (s_unsub s) (s_dst s) (s_subj s) (s_user s))
    | Uns =>                                                                                   (* :377-392, :291-306 *)
        if s_unsub s then (s, [])
        else let s1 := mkSession (s_ended s) true (s_dst s) (s_subj s) (s_user s) in
             if closed D (s_dst s) then (s1, []) else on_dst (CN Uns) s1
    end.
  (** A clone is dropped. That alone does nothing (:420-423); with the last one the ErasedSubscriber is
      dropped, which unsubscribes the destination if it is not closed
      (crates/rx_core_macro_common/src/derive_subscription.rs:83-89) and then drops it. *)
  Definition let_go (subj user : bool) (s : session) : session * list (ev X) :=
    let s1 := mkSession (s_ended s) (s_unsub s) (s_dst s) subj user in
    if subj || user then (s1, [])
    else let '(s2, w2) := if closed D (s_dst s1) then (s1, []) else on_dst (CN Uns) s1 in
         let '(s3, w3) := on_dst CDrop s2 in (s3, w2 ++ w3).

  (** What can happen to one of them: a notification from the subject; the subject lets go of it; the
      subscription is unsubscribed (derive_subscription.rs:52-55), given a teardown, which is passed on
      without looking whether anything is closed (derive_teardown_collection.rs:45-50, subscriber_arc_mutex.rs:104-108),
      or dropped, which unsubscribes if it is not closed (derive_subscription.rs:83-89). *)
  Inductive sop : Type := SNote (n : ncall I E) | SLet | SUns | SAdd (t : list nat) | SDrop.
  Definition sdo (o : sop) (s : session) : session * list (ev X) :=
    match o with
    | SNote n => if s_subj s then note n s else (s, [])
    | SLet => if s_subj s then let_go false (s_user s) s else (s, [])
    | SUns => if s_user s then note Uns s else (s, [])
    | SAdd t => if s_user s then on_dst (CAdd t) s else (s, [])
    | SDrop => if s_user s then
                 let '(s1, w1) := if is_closed s then (s, []) else note Uns s in
                 let '(s2, w2) := let_go (s_subj s1) false s1 in (s2, w1 ++ w2)
               else (s, [])
    end.

  (** The subject: those that have subscribed, with what each has made visible; the last one is the one in
      the subject (test_subject.rs:32). [w_alive]: there is a handle of the subject; RxSubject derives no Drop
      (crates/rx_core_macro_subject_derive/src/lib.rs:107-121). *)
  Record world : Type := mkWorld { w_sessions : list (session * list (ev X)); w_alive : bool }.
  Definition new_subject : world := mkWorld [] true.
  Fixpoint change (i : nat) (o : sop) (l : list (session * list (ev X))) : list (session * list (ev X)) :=
    match l with
    | [] => []
    | (s, w) :: r => match i with
                     | 0 => let '(s1, w1) := sdo o s in (s1, w ++ w1) :: r
                     | S j => (s, w) :: change j o r
                     end
    end.
  Definition change_last (o : sop) (l : list (session * list (ev X))) : list (session * list (ev X)) :=
    match length l with 0 => l | S k => change k o l end.

  Inductive wop : Type :=
  | WSubscribe (d : st D) | WCall (n : ncall I E) | WIsClosed | WEnd
  | WUnsub (i : nat) | WAdd (i : nat) (t : list nat) | WDropSub (i : nat).
  (** [Void]: there is nothing to call it on, which cannot be written in Rust. *)
  Inductive wout : Type := Done | Says (b : bool) | Panics | Void.
  Definition wdo (o : wop) (w : world) : world * wout :=
    let l := w_sessions w in
    match o with
    | WSubscribe d =>                                                                          (* :103-117 *)
        if w_alive w then (mkWorld (change_last SLet l ++ [(mkSession false false d true true, [])]) true, Done) else (w, Void)
    | WCall n =>                                                                               (* :41-66, :84-90 *)
        if w_alive w then match l with [] => (w, Panics) | _ => (mkWorld (change_last (SNote n) l) true, Done) end else (w, Void)
    | WIsClosed =>                                                                             (* :75-81 *)
        if w_alive w then match rev l with [] => (w, Panics) | (s, _) :: _ => (w, Says (is_closed s)) end else (w, Void)
    | WEnd => if w_alive w then (mkWorld (change_last SLet l) false, Done) else (w, Void)
    | WUnsub i => (mkWorld (change i SUns l) (w_alive w), Done)
    | WAdd i t => (mkWorld (change i (SAdd t) l) (w_alive w), Done)
    | WDropSub i => (mkWorld (change i SDrop l) (w_alive w), Done)
    end.
  Fixpoint wexec (ops : list wop) (w : world) : world :=
    match ops with [] => w | o :: r => wexec r (fst (wdo o w)) end.
End TestSubject.
Arguments SNote {I E} n. Arguments SLet {I E}. Arguments SUns {I E}. Arguments SAdd {I E} t. Arguments SDrop {I E}.
Arguments sop I E : clear implicits.
Arguments wop {X I E} D. Arguments WSubscribe {X I E} D d. Arguments WCall {X I E} D n. Arguments WIsClosed {X I E} D.
Arguments WEnd {X I E} D. Arguments WUnsub {X I E} D i. Arguments WAdd {X I E} D i t. Arguments WDropSub {X I E} D i.
Arguments new_subject {X I E} D. Arguments mkSession {X I E} D. Arguments mkWorld {X I E D}.
