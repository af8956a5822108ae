(** ConnectableObservable and share. No proofs in this file.

    Connectors (subjects), subscribers and connections (subscriptions to the source) are numbered.
    The connector is a publish subject: it tells every open subscriber, in some order ([order]: its
    table is a hash map), and one that comes after its end the end. [down i] says after which calls subscriber [i] has closed itself. [sync k] are the
    calls the source makes while it is subscribed to for the k-th time, and [live k] says whether
    its subscription is then open; what it does later is up to the history. Subscribers do not
    subscribe, connect or disconnect while they are told something (the code would dead-lock when
    that is in [connect], which holds the lock of the connector). A source that is unsubscribed
    while it calls its subscriber unsubscribes it at once, not when the call returns. *)
From Verif Require Import Base SubscrModel LifeModel CombModel.
Set Implicit Arguments.

(** crates/rx_core_observable_connectable/src/connectable_observable_options.rs:3-17. *)
Record opts : Type := mkOpts { o_zero : bool; o_disconnect : bool; o_error : bool; o_complete : bool }.

Section Share.
Variables A E : Type.
Notation call := (ncall A E).
Variable o : opts.
Variable down : nat -> list call -> bool.
Variable sync : nat -> list call.
Variable live : nat -> bool.
Variable order : nat -> list nat -> list nat.

(** What happens: subscriber [i] joins connector [c], leaves, is told something; the source is
    subscribed to for connector [c], makes a call, has been subscribed to (and its subscription is
    open or not), is unsubscribed; the user disconnects; the user resets. *)
Inductive ev : Type :=
  TJoin (i c : nat) | TLeave (i : nat) | TOut (i : nat) (x : call)
| TSub (k c : nat) | TIn (k : nat) (x : call) | TReady (k : nat) (open : bool) | TEnd (k : nat) | TUser | TReset.

Record st : Type := mkSt {
  v_cur : option nat;                         (* connector *)
  v_nc : nat;                                 (* number of connectors *)
  v_over : nat -> option call;                (* how each has ended *)
  v_ni : nat;                                 (* number of subscribers *)
  v_on : nat -> nat;                          (* their connectors *)
  v_open : nat -> bool;
  v_told : nat -> list call;
  v_nk : nat;                                 (* number of connections *)
  v_for : nat -> nat;                         (* their connectors *)
  v_run : nat -> bool;                        (* the subscription to the source is open *)
  v_torn : nat -> bool;                       (* the teardown of the ConnectionSubscriber is closed *)
  v_conn : option nat;                        (* connection *)
  v_count : nat; v_errored : bool; v_completed : bool;   (* connection_state *)
  v_tr : list ev
}.
Definition init : st := mkSt None 0 (fun _ => None) 0 (fun _ => 0) (fun _ => false) (fun _ => []) 0 (fun _ => 0) (fun _ => false) (fun _ => false) None 0 false false [].
Definition put (X : Type) (f : nat -> X) (j : nat) (v : X) : nat -> X := fun i => if i =? j then v else f i.

Section Set_.
Variable s : st.
Definition with_cur v := mkSt v (v_nc s) (v_over s) (v_ni s) (v_on s) (v_open s) (v_told s) (v_nk s) (v_for s) (v_run s) (v_torn s) (v_conn s) (v_count s) (v_errored s) (v_completed s) (v_tr s).
Definition with_nc v := mkSt (v_cur s) v (v_over s) (v_ni s) (v_on s) (v_open s) (v_told s) (v_nk s) (v_for s) (v_run s) (v_torn s) (v_conn s) (v_count s) (v_errored s) (v_completed s) (v_tr s).
Definition with_over c v := mkSt (v_cur s) (v_nc s) (put (v_over s) c v) (v_ni s) (v_on s) (v_open s) (v_told s) (v_nk s) (v_for s) (v_run s) (v_torn s) (v_conn s) (v_count s) (v_errored s) (v_completed s) (v_tr s).
Definition with_sub i c b := mkSt (v_cur s) (v_nc s) (v_over s) (S i) (put (v_on s) i c) (put (v_open s) i b) (v_told s) (v_nk s) (v_for s) (v_run s) (v_torn s) (v_conn s) (v_count s) (v_errored s) (v_completed s) (v_tr s).
Definition with_open i b := mkSt (v_cur s) (v_nc s) (v_over s) (v_ni s) (v_on s) (put (v_open s) i b) (v_told s) (v_nk s) (v_for s) (v_run s) (v_torn s) (v_conn s) (v_count s) (v_errored s) (v_completed s) (v_tr s).
Definition with_told i l := mkSt (v_cur s) (v_nc s) (v_over s) (v_ni s) (v_on s) (v_open s) (put (v_told s) i l) (v_nk s) (v_for s) (v_run s) (v_torn s) (v_conn s) (v_count s) (v_errored s) (v_completed s) (v_tr s).
Definition with_connection k c := mkSt (v_cur s) (v_nc s) (v_over s) (v_ni s) (v_on s) (v_open s) (v_told s) (S k) (put (v_for s) k c) (put (v_run s) k true) (put (v_torn s) k false) (v_conn s) (v_count s) (v_errored s) (v_completed s) (v_tr s).
Definition with_run k b := mkSt (v_cur s) (v_nc s) (v_over s) (v_ni s) (v_on s) (v_open s) (v_told s) (v_nk s) (v_for s) (put (v_run s) k b) (v_torn s) (v_conn s) (v_count s) (v_errored s) (v_completed s) (v_tr s).
Definition with_torn k b := mkSt (v_cur s) (v_nc s) (v_over s) (v_ni s) (v_on s) (v_open s) (v_told s) (v_nk s) (v_for s) (v_run s) (put (v_torn s) k b) (v_conn s) (v_count s) (v_errored s) (v_completed s) (v_tr s).
Definition with_conn v := mkSt (v_cur s) (v_nc s) (v_over s) (v_ni s) (v_on s) (v_open s) (v_told s) (v_nk s) (v_for s) (v_run s) (v_torn s) v (v_count s) (v_errored s) (v_completed s) (v_tr s).
Definition with_count v := mkSt (v_cur s) (v_nc s) (v_over s) (v_ni s) (v_on s) (v_open s) (v_told s) (v_nk s) (v_for s) (v_run s) (v_torn s) (v_conn s) v (v_errored s) (v_completed s) (v_tr s).
Definition with_flags e c := mkSt (v_cur s) (v_nc s) (v_over s) (v_ni s) (v_on s) (v_open s) (v_told s) (v_nk s) (v_for s) (v_run s) (v_torn s) (v_conn s) (v_count s) e c (v_tr s).
Definition log e := mkSt (v_cur s) (v_nc s) (v_over s) (v_ni s) (v_on s) (v_open s) (v_told s) (v_nk s) (v_for s) (v_run s) (v_torn s) (v_conn s) (v_count s) (v_errored s) (v_completed s) (v_tr s ++ [e]).
End Set_.

(** connection_subscriber.rs:87-90. *)
Definition deaf (k : nat) (s : st) : bool := v_torn s k || match v_over s (v_for s k) with Some _ => true | None => false end.
(** connection_subscriber.rs:92-108, with the closure of connector_state.rs:104-112. *)
Definition connection_unsubscribe (k : nat) (s : st) : st :=
  if deaf k s then s else with_torn (if o_disconnect o then with_cur s None else s) k true.
(** Unsubscribing the subscription to the source, through a handle; the source then unsubscribes
    its subscriber. *)
Definition end_connection (k : nat) (s : st) : st :=
  if v_run s k then connection_unsubscribe k (log (with_run s k false) (TEnd k)) else s.

(** The teardown of a subscriber, connectable_observable.rs:94-118, with
    connection_state.rs:53-62. *)
Definition leave (i : nat) (s : st) : st :=
  if negb (v_open s i) then s else
  let s1 := with_count (log (with_open s i false) (TLeave i)) (v_count s - 1) in
  if o_zero o && (v_count s1 =? 0) && negb (v_errored s1) && negb (v_completed s1)
  then let s2 := with_conn s1 None in match v_conn s1 with Some k => end_connection k s2 | None => s2 end
  else s1.
(** A call of the connector to one of its subscribers. *)
Definition tell_sub (i : nat) (x : call) (s : st) : st :=
  if negb (v_open s i) then s else
  let l := v_told s i ++ [x] in
  let s1 := log (with_told s i l) (TOut i x) in
  if is_closing x || down i l then leave i s1 else s1.
(** To all of them. *)
Fixpoint multicast (c : nat) (x : call) (is : list nat) (s : st) : st :=
  match is with
  | [] => s
  | i :: r => multicast c x r (if v_on s i =? c then tell_sub i x s else s)
  end.
Definition tell_all (c : nat) (x : call) (s : st) : st := multicast c x (order (length (v_tr s)) (seq 0 (v_ni s))) s.

(** A call of the source, connection_subscriber.rs:43-77, with the closures of
    connector_state.rs:86-103 and connection_state.rs:39-48, :64-67. The source's subscription is
    closed after its end. *)
Definition signal (k : nat) (x : call) (s0 : st) : st :=
  if negb (v_run s0 k) then s0 else
  let s := log s0 (TIn k x) in
  match x with
  | Nxt a => if deaf k s then s else tell_all (v_for s k) (Nxt a) s
  | Err e =>
      let s := with_run s k false in
      if deaf k s then s else
      let s1 := if o_error o then with_flags (with_cur s None) false false else s in
      let s2 := with_flags s1 true (v_completed s1) in
      with_torn (tell_all (v_for s2 k) (Err e) (with_over s2 (v_for s2 k) (Some (Err e)))) k true
  | Cmp =>
      let s := with_run s k false in
      if deaf k s then s else
      let s1 := if o_complete o then with_flags (with_cur s None) false false else s in
      let s2 := with_flags s1 (v_errored s1) true in
      with_torn (tell_all (v_for s2 k) Cmp (with_over s2 (v_for s2 k) (Some Cmp))) k true
  | Uns => connection_unsubscribe k (with_run s k false)
  end.
Fixpoint signals (k : nat) (l : list call) (s : st) : st :=
  match l with [] => s | x :: r => signals k r (signal k x s) end.

(** connector_state.rs:62-67. *)
Definition get_connector (s : st) : nat * st :=
  match v_cur s with
  | Some c => (c, s)
  | None => (v_nc s, with_cur (with_nc s (S (v_nc s))) (Some (v_nc s)))
  end.
Definition active (s : st) : bool := match v_conn s with Some k => v_run s k | None => false end.
(** connector_state.rs:69-132, connection.rs:36-44, :50-56. What [register_connection] disconnects
    is not running. *)
Definition connect (s : st) : st :=
  if active s then s else
  let (c, s1) := get_connector s in
  let k := v_nk s1 in
  let s2 := signals k (sync k) (log (with_connection s1 k c) (TSub k c)) in
  let b := v_run s2 k && live k in
  with_conn (log (with_run s2 k b) (TReady k b)) (Some k).
(** connection.rs:18-27. *)
Definition disconnect (s : st) : st :=
  let s1 := with_conn s None in match v_conn s with Some k => end_connection k s1 | None => s1 end.
(** connectable_observable.rs:79-121. *)
Definition subscribe (s : st) : st :=
  let (c, s1) := get_connector s in
  let i := v_ni s1 in
  match v_over s1 c with
  | Some x => log (with_told (with_sub s1 i c false) i [x]) (TOut i x)
  | None => log (with_count (with_sub s1 i c true) (S (v_count s1))) (TJoin i c)
  end.

(** [AShare] is share_observable.rs:98-110; its [connect], :55-67, finds its handle closed or gets
    the connection that is active. [AHandle] is the unsubscription of a handle that was returned by
    [connect], and share's [disconnect], :69-78. *)
Inductive act : Type :=
  ASubscribe | AShare | AUnsubscribe (i : nat) | AConnect | ADisconnect | AReset | AHandle (k : nat) | ASource (k : nat) (x : call).
Definition perform (a : act) (s : st) : st :=
  match a with
  | ASubscribe => subscribe s
  | AShare => connect (subscribe s)
  | AUnsubscribe i => leave i s
  | AConnect => connect s
  | ADisconnect => disconnect (log s TUser)
  | AReset => with_cur (log (disconnect (log s TUser)) TReset) None  (* connector_state.rs:138-141 *)
  | AHandle k => end_connection k (log s TUser)
  | ASource k x => signal k x s
  end.
Definition run (h : list act) : st := fold_left (fun s a => perform a s) h init.
End Share.
Arguments TJoin {A E} i c. Arguments TLeave {A E} i. Arguments TSub {A E} k c. Arguments TReady {A E} k open. Arguments TEnd {A E} k. Arguments TUser {A E}. Arguments TReset {A E}.
Arguments init {A E}. Arguments ASubscribe {A E}. Arguments AShare {A E}. Arguments AUnsubscribe {A E} i. Arguments AConnect {A E}.
Arguments ADisconnect {A E}. Arguments AReset {A E}. Arguments AHandle {A E} k.
