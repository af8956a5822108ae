(** SharedSubscriber: one destination behind a mutex, used through any number of
    clones, with a queue for calls that arrive while the destination is locked.
    crates/rx_core_common/src/subscribers/subscriber_shared.rs.
    No proofs in this file. *)
From Verif Require Import Base SubscrModel.
Set Implicit Arguments.

(** ** One thread, re-entrant destination

    A destination is an arbitrary state machine. While it processes a call it
    may call back into (a clone of) the shared subscriber that feeds it; the
    calls it makes are part of its reaction. They find the mutex locked, so the
    only thing they can do is change the deferred state, which is why they can be
    given as a list. Simplified: the destination does not look at the shared
    subscriber's is_closed, and does not call its add_teardown (which would wait
    for its own lock). *)
Record dest (A E : Type) : Type := mkDest {
  dst : Type;
  react : dst -> ncall A E -> dst * list (ncall A E);
  dclosed : dst -> bool
}.

(** notification_subscriber.rs:44-47 [is_closing]. *)
Definition closing {A E} (n : ncall A E) : bool :=
  match n with Nxt _ => false | _ => true end.

(** subscriber_shared.rs:36-53 [SubscriberDeferredState], the destination, and a
    log of the calls the destination has received. *)
Record shared {A E} (D : dest A E) : Type := mkShared {
  sh_dst : dst D;
  sh_q : list (ncall A E);
  sh_flag : bool;          (* closed_flag *)
  sh_uns : bool;           (* observed_unsubscribe *)
  sh_cmp : bool;           (* observed_completion *)
  sh_err : bool;           (* observed_error *)
  sh_log : list (ncall A E)
}.

(** :114-128 *)
Definition sh_new {A E} (D : dest A E) (d : dst D) : shared D :=
  {| sh_dst := d; sh_q := []; sh_flag := false; sh_uns := false; sh_cmp := false;
     sh_err := false; sh_log := [] |}.

Section OneThread.
Context {A E : Type} (D : dest A E).

Definition set_q (s : shared D) q : shared D :=
  {| sh_dst := sh_dst s; sh_q := q; sh_flag := sh_flag s; sh_uns := sh_uns s;
     sh_cmp := sh_cmp s; sh_err := sh_err s; sh_log := sh_log s |}.
Definition set_flag (s : shared D) : shared D :=
  {| sh_dst := sh_dst s; sh_q := sh_q s; sh_flag := true; sh_uns := sh_uns s;
     sh_cmp := sh_cmp s; sh_err := sh_err s; sh_log := sh_log s |}.
Definition set_uns (s : shared D) : shared D :=
  {| sh_dst := sh_dst s; sh_q := sh_q s; sh_flag := sh_flag s; sh_uns := true;
     sh_cmp := sh_cmp s; sh_err := sh_err s; sh_log := sh_log s |}.
Definition set_cmp (s : shared D) : shared D :=
  {| sh_dst := sh_dst s; sh_q := sh_q s; sh_flag := sh_flag s; sh_uns := sh_uns s;
     sh_cmp := true; sh_err := sh_err s; sh_log := sh_log s |}.
Definition set_err (s : shared D) : shared D :=
  {| sh_dst := sh_dst s; sh_q := sh_q s; sh_flag := sh_flag s; sh_uns := sh_uns s;
     sh_cmp := sh_cmp s; sh_err := true; sh_log := sh_log s |}.
Definition set_dst (s : shared D) d n : shared D :=
  {| sh_dst := d; sh_q := sh_q s; sh_flag := sh_flag s; sh_uns := sh_uns s;
     sh_cmp := sh_cmp s; sh_err := sh_err s; sh_log := sh_log s ++ [n] |}.

(** :88-93 [SubscriberDeferredState::is_closed] *)
Definition st_closed (s : shared D) : bool :=
  sh_flag s || sh_cmp s || sh_uns s || sh_err s.

(** :60-70 [defer_notification] *)
Definition defer (s : shared D) (n : ncall A E) : shared D :=
  let first_unsub := match n with Uns => negb (sh_uns s) | _ => false end in
  if sh_flag s && negb first_unsub then s else set_q s (sh_q s ++ [n]).

(** :325-393 with the destination locked by the caller further up the stack: the
    try_lock in is_closed gives false, the one in try_* fails, and so does the one
    in try_apply_deferred. *)
Definition locked_call (s : shared D) (n : ncall A E) : shared D :=
  match n with
  | Nxt a => if st_closed s then s else defer s (Nxt a)
  | Err e => if st_closed s then s else defer (set_err s) (Err e)
  | Cmp => if st_closed s then s else defer (set_cmp s) Cmp
  | Uns => if sh_uns s then s else defer (set_uns s) Uns
  end.

Definition locked_calls (s : shared D) (ns : list (ncall A E)) : shared D :=
  fold_left locked_call ns s.

(** notification_subscriber.rs:78-92 [push] on the locked destination. *)
Definition deliver (s : shared D) (n : ncall A E) : shared D :=
  let r := react D (sh_dst s) n in
  locked_calls (set_dst s (fst r) n) (snd r).

(** :232-243, one notification of a drained queue. *)
Definition apply_one (s : shared D) (n : ncall A E) : shared D :=
  let s1 := if sh_flag s then s else deliver s n in
  if closing n then set_flag s1 else s1.

Inductive outcome : Type :=
| Fine (s : shared D)
| Panicked (s : shared D).   (* :213-217 *)

Definition max_depth : nat := 10.   (* :11 *)

(** :208-244 [apply_notification_queue]; [left] iterations remain of the loop over
    [0..=10], the last of which is the panic. *)
Fixpoint apply_queue (left : nat) (s : shared D) : outcome :=
  match left with
  | 0 => Panicked s
  | S left' =>
      match sh_q s with
      | [] => Fine s
      | ns => apply_queue left' (fold_left apply_one ns (set_q s []))
      end
  end.

Definition andthen (o : outcome) (k : shared D -> outcome) : outcome :=
  match o with Fine s => k s | Panicked s => Panicked s end.

(** :191-200 [try_apply_deferred] with the destination free. *)
Definition try_apply (s : shared D) : outcome :=
  match sh_q s with [] => Fine s | _ => apply_queue max_depth s end.

(** :368-375 [is_closed] with the destination free. *)
Definition sh_closed (s : shared D) : bool := st_closed s || dclosed D (sh_dst s).

(** :247-289 [try_next], [try_error], [try_complete] with the destination free. *)
Definition try_obs (n : ncall A E) (s : shared D) : outcome :=
  andthen (apply_queue max_depth s) (fun s => Fine (deliver s n)).

(** :291-306 [try_unsubscribe] *)
Definition try_unsub (s : shared D) : outcome :=
  andthen (apply_queue max_depth s) (fun s =>
    let s := set_flag s in
    Fine (if dclosed D (sh_dst s) then s else deliver s Uns)).

(** :325-393 called from outside. *)
Definition top_call (s : shared D) (n : ncall A E) : outcome :=
  andthen
    match n with
    | Nxt a => if sh_closed s then Fine s else try_obs (Nxt a) s
    | Err e => if sh_closed s then Fine s else try_obs (Err e) (set_err s)
    | Cmp => if sh_closed s then Fine s else try_obs Cmp (set_cmp s)
    | Uns => if sh_uns s then Fine s else try_unsub (set_uns s)
    end
    try_apply.

(** A history of calls made from outside, on any clones. A panic ends it. *)
Fixpoint top_calls (s : shared D) (ns : list (ncall A E)) : outcome :=
  match ns with
  | [] => Fine s
  | n :: ns' => andthen (top_call s n) (fun s => top_calls s ns')
  end.

End OneThread.
Arguments Fine {A E D} s.
Arguments Panicked {A E D} s.

(** ** Several threads, [next] only

    Small-step model: threads call [next] on clones of one shared subscriber. The
    destination never closes and does not call back. Every critical section of the
    deferred_state mutex is one atomic step (none contains a blocking operation or
    a callback: subscriber_shared.rs:192, :210-227, :236, :329-331, :369); the
    destination mutex is held across steps. *)
Section Threads.
Context {V : Type}.

(** What a thread is about to do. *)
Inductive pc : Type :=
| Idle                       (* between calls *)
| Chk (v : V)                (* :369-374 is_closed: about to try_lock the destination *)
| ChkHold (v : V)            (* holding it during is_closed *)
| Try (v : V)                (* :251 try_lock *)
| Apply (k : nat) (batch : list V) (direct : option V)
                             (* :208-244, holding the lock; [direct] is the value of
                                try_next (:255), None inside try_apply_deferred *)
| Direct (v : V)             (* :255 *)
| Unlock                     (* :257 end of the guard in try_next *)
| Defer (v : V)              (* :329-331 *)
| Dirty                      (* :192 *)
| TryA                       (* :193 *)
| UnlockA                    (* :199 *)
| Dead (lost : option V).    (* :213-217 panicked with the lock held: the mutex is
                                poisoned, so every later try_lock fails too *)

Record sys : Type := mkSys {
  pcs : nat -> pc;
  todo : nat -> list V;        (* values a thread has still to push *)
  owner : option nat;          (* who holds the destination lock *)
  queue : list V;              (* deferred_notifications_queue *)
  out : list V                 (* delivered *)
}.

Definition upd {X} (f : nat -> X) (t : nat) (x : X) : nat -> X :=
  fun u => if Nat.eqb u t then x else f u.

Definition goto (s : sys) (t : nat) (p : pc) : sys :=
  {| pcs := upd (pcs s) t p; todo := todo s; owner := owner s; queue := queue s;
     out := out s |}.

(** One step of thread [t]; [None] if it has nothing to do. *)
Definition tstep (s : sys) (t : nat) : option sys :=
  match pcs s t with
  | Idle =>
      match todo s t with
      | [] => None
      | v :: r => Some {| pcs := upd (pcs s) t (Chk v); todo := upd (todo s) t r;
                          owner := owner s; queue := queue s; out := out s |}
      end
  | Chk v =>
      match owner s with
      | None => Some {| pcs := upd (pcs s) t (ChkHold v); todo := todo s;
                        owner := Some t; queue := queue s; out := out s |}
      | Some _ => Some (goto s t (Try v))
      end
  | ChkHold v =>
      Some {| pcs := upd (pcs s) t (Try v); todo := todo s; owner := None;
              queue := queue s; out := out s |}
  | Try v =>
      match owner s with
      | None => Some {| pcs := upd (pcs s) t (Apply 0 [] (Some v)); todo := todo s;
                        owner := Some t; queue := queue s; out := out s |}
      | Some _ => Some (goto s t (Defer v))
      end
  | Apply k (x :: b) d =>
      Some {| pcs := upd (pcs s) t (Apply k b d); todo := todo s; owner := owner s;
              queue := queue s; out := out s ++ [x] |}
  | Apply k [] d =>
      if Nat.eqb k max_depth then Some (goto s t (Dead d))
      else match queue s with
           | [] => Some (goto s t (match d with Some v => Direct v | None => UnlockA end))
           | q => Some {| pcs := upd (pcs s) t (Apply (S k) q d); todo := todo s;
                          owner := owner s; queue := []; out := out s |}
           end
  | Direct v =>
      Some {| pcs := upd (pcs s) t Unlock; todo := todo s; owner := owner s;
              queue := queue s; out := out s ++ [v] |}
  | Unlock =>
      Some {| pcs := upd (pcs s) t Dirty; todo := todo s; owner := None;
              queue := queue s; out := out s |}
  | Defer v =>
      Some {| pcs := upd (pcs s) t Dirty; todo := todo s; owner := owner s;
              queue := queue s ++ [v]; out := out s |}
  | Dirty =>
      match queue s with
      | [] => Some (goto s t Idle)
      | _ => Some (goto s t TryA)
      end
  | TryA =>
      match owner s with
      | None => Some {| pcs := upd (pcs s) t (Apply 0 [] None); todo := todo s;
                        owner := Some t; queue := queue s; out := out s |}
      | Some _ => Some (goto s t Idle)
      end
  | UnlockA =>
      Some {| pcs := upd (pcs s) t Idle; todo := todo s; owner := None;
              queue := queue s; out := out s |}
  | Dead _ => None
  end.

(** An interleaving: which thread moves next. *)
Fixpoint schedule (s : sys) (ts : list nat) : sys :=
  match ts with
  | [] => s
  | t :: ts' =>
      match tstep s t with
      | Some s' => schedule s' ts'
      | None => schedule s ts'
      end
  end.

Definition sys0 (prog : nat -> list V) : sys :=
  {| pcs := fun _ => Idle; todo := prog; owner := None; queue := []; out := [] |}.

End Threads.
