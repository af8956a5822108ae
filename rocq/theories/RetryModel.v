(** The retry operator. No proofs in this file.

    The attempts (subscriptions to the source) are numbered. [sync j] are the calls that the source
    makes while it is subscribed to for the j-th time, and [live j] says whether the subscription
    it then returns is open; what it does later is up to the history. The subscription is closed
    if the destination is. Unsubscribing it stops the calls and unsubscribes the subscriber, as
    soon as that is not in the middle of a call. The destination is a function of what it was told
    and does not call back, so the nested calls of the code are nested functions. *)
From Verif Require Import Base SubscrModel LifeModel CombModel.
Set Implicit Arguments.

Section Retry.
Variables A E : Type.
Notation call := (ncall A E).
Variable down : list call -> bool.
Variable sync : nat -> list call.
Variable live : nat -> bool.
Variable max : nat.                           (* max_retries *)

(** What happens: the source is subscribed to, makes a call, its subscription is unsubscribed; the
    user unsubscribes; the destination is told something. *)
Inductive ev : Type := TSub (j : nat) | TIn (j : nat) (c : call) | TEnd (j : nat) | TUser | TOut (c : call).
Inductive terminal : Type := FErr (e : E) | FCmp.

(** crates/rx_core_operator_retry/src/retry_subscriber.rs:15-32 and retry_observable.rs:18-25,
    :56-64. *)
Record st : Type := mkSt {
  r_told : told A E;                          (* the shared destination *)
  r_outer : bool;                             (* outer_subscription is closed *)
  r_added : bool;                             (* last_subscription is one of its teardowns *)
  r_last : option nat;                        (* last_subscription *)
  r_caught : option E;                        (* caught_error *)
  r_n : nat;                                  (* number of attempts so far *)
  r_retries : nat -> nat;                     (* retries of each subscriber *)
  r_fin : nat -> option terminal;             (* finished_with *)
  r_open : nat -> bool;                       (* the subscription was returned open and not unsubscribed since *)
  r_busy : option nat;                        (* the subscriber that is being called by the source *)
  r_tr : list ev
}.
Definition init : st := mkSt t_new false false None None 0 (fun _ => 0) (fun _ => None) (fun _ => false) None [].

Section Set_.
Variable s : st.
Definition put (X : Type) (f : nat -> X) (j : nat) (v : X) : nat -> X := fun i => if i =? j then v else f i.
Definition with_told v := mkSt v (r_outer s) (r_added s) (r_last s) (r_caught s) (r_n s) (r_retries s) (r_fin s) (r_open s) (r_busy s) (r_tr s).
Definition with_outer v := mkSt (r_told s) v (r_added s) (r_last s) (r_caught s) (r_n s) (r_retries s) (r_fin s) (r_open s) (r_busy s) (r_tr s).
Definition with_added v := mkSt (r_told s) (r_outer s) v (r_last s) (r_caught s) (r_n s) (r_retries s) (r_fin s) (r_open s) (r_busy s) (r_tr s).
Definition with_last v := mkSt (r_told s) (r_outer s) (r_added s) v (r_caught s) (r_n s) (r_retries s) (r_fin s) (r_open s) (r_busy s) (r_tr s).
Definition with_caught v := mkSt (r_told s) (r_outer s) (r_added s) (r_last s) v (r_n s) (r_retries s) (r_fin s) (r_open s) (r_busy s) (r_tr s).
Definition with_n v := mkSt (r_told s) (r_outer s) (r_added s) (r_last s) (r_caught s) v (r_retries s) (r_fin s) (r_open s) (r_busy s) (r_tr s).
Definition with_retries j v := mkSt (r_told s) (r_outer s) (r_added s) (r_last s) (r_caught s) (r_n s) (put (r_retries s) j v) (r_fin s) (r_open s) (r_busy s) (r_tr s).
Definition with_fin j v := mkSt (r_told s) (r_outer s) (r_added s) (r_last s) (r_caught s) (r_n s) (r_retries s) (put (r_fin s) j v) (r_open s) (r_busy s) (r_tr s).
Definition with_open j v := mkSt (r_told s) (r_outer s) (r_added s) (r_last s) (r_caught s) (r_n s) (r_retries s) (r_fin s) (put (r_open s) j v) (r_busy s) (r_tr s).
Definition with_busy v := mkSt (r_told s) (r_outer s) (r_added s) (r_last s) (r_caught s) (r_n s) (r_retries s) (r_fin s) (r_open s) v (r_tr s).
Definition log e := mkSt (r_told s) (r_outer s) (r_added s) (r_last s) (r_caught s) (r_n s) (r_retries s) (r_fin s) (r_open s) (r_busy s) (r_tr s ++ [e]).
End Set_.

Definition shut (s : st) : bool := t_shut (r_told s).
Definition is_busy (j : nat) (s : st) : bool := match r_busy s with Some i => i =? j | None => false end.
Definition none (X : Type) (o : option X) : bool := match o with None => true | Some _ => false end.

(** A call on the shared destination; a closed one ignores it. *)
Definition tell_d (c : call) (s : st) : st :=
  if shut s then s else log (with_told s (tell down c (r_told s))) (TOut c).

(** Unsubscribing the subscription of an attempt, while [outer_subscription] is closed or
    [last_subscription] is empty: the subscriber's unsubscribe, retry_subscriber.rs:161-163, and
    its [finish], :78-87, then only unsubscribe the destination. *)
Definition end_sub (j : nat) (s : st) : st :=
  if negb (r_open s j) then s else
  let s1 := log (with_open s j false) (TEnd j) in
  if is_busy j s then s1 else
  if none (r_caught s1) && none (r_fin s1 j) then tell_d Uns (with_outer s1 true) else s1.
Definition end_last (s : st) : st := match r_last s with Some j => end_sub j s | None => s end.
Definition outer_unsubscribe (s : st) : st :=
  if r_outer s then s else
  let s1 := with_outer s true in if r_added s then end_last s1 else s1.
(** Adding [last_subscription] to the teardowns of [outer_subscription]. *)
Definition outer_add (s : st) : st := if r_outer s then end_last s else with_added s true.

Definition finish (j : nat) (s : st) : st :=                          (* retry_subscriber.rs:78-87 *)
  let s0 := with_fin s j None in
  let s1 := match r_fin s j with
            | Some (FErr e) => tell_d (Err e) s0
            | Some FCmp => tell_d Cmp s0
            | None => s0
            end in
  tell_d Uns (outer_unsubscribe s1).
Definition sub_unsubscribe (j : nat) (s : st) : st :=                 (* retry_subscriber.rs:161-163 *)
  if none (r_caught s) && none (r_fin s j) then finish j s else s.

(** The calls other than an error, retry_subscriber.rs:95-102, :149-152, :161-165, and an error made
    during a subscription, when the subscriber finds the source gone, :104-110. *)
Definition easy_call (j : nat) (c : call) (s : st) : st :=
  let s := log s (TIn j c) in
  match c with
  | Nxt a => let s1 := tell_d (Nxt a) s in if shut s1 then sub_unsubscribe j s1 else s1
  | Err e => with_caught s (Some e)
  | Cmp => finish j (with_fin s j (Some FCmp))
  | Uns => sub_unsubscribe j s
  end.
Fixpoint easy_calls (j : nat) (l : list call) (s : st) : st :=
  match l with [] => s | c :: r => easy_calls j r (easy_call j c s) end.

(** One subscription to the source, retry_observable.rs:68-84 and retry_subscriber.rs:114-133. *)
Definition attempt (retries : nat) (s : st) : st :=
  let j := r_n s in
  let s1 := log (with_fin (with_retries (with_n s (S j)) j retries) j None) (TSub j) in
  let s2 := easy_calls j (sync j) s1 in
  if live j && negb (shut s2) then with_last (with_open s2 j true) (Some j) else s2.

(** retry_observable.rs:66-110; [left] is [max_retries + 1 - immediate_retries]. *)
Fixpoint immediate (left : nat) (s : st) : st :=
  match left with
  | O => s
  | S left' =>
      let s1 := attempt (max - left') (with_caught s None) in
      if none (r_caught s1)
      then
        let s2 := if shut s1 then s1 else outer_add s1 in
        if left' =? 0 then outer_unsubscribe (tell_d Uns s2) else s2
      else
        let s2 := end_last s1 in
        let s3 := with_last s2 None in
        match left' with
        | O => match r_caught s3 with
               | Some e => outer_unsubscribe (tell_d Uns (tell_d (Err e) (with_caught s3 None)))
               | None => s3
               end
        | S _ => immediate left' s3
        end
  end.
Definition subscribe : st := immediate (S max) init.

(** retry_subscriber.rs:58-76 *)
Definition reset (j : nat) (s : st) : st :=
  let s1 := match r_last s with Some i => end_sub i (with_last s None) | None => s end in
  with_caught (with_fin s1 j None) None.
(** retry_subscriber.rs:111-139, the loop; [left] is at least [max_retries + 1 - retries]. *)
Fixpoint again (left : nat) (j : nat) (s : st) : st :=
  match left with
  | O => s
  | S left' =>
      if r_retries s j <=? max then
        let s1 := reset j s in
        let s2 := with_retries s1 j (S (r_retries s1 j)) in
        let s3 := attempt (r_retries s2 j) s2 in
        if none (r_caught s3) then outer_add s3 else again left' j s3
      else s
  end.
Definition error (j : nat) (e : E) (s : st) : st :=                   (* retry_subscriber.rs:104-147 *)
  let s1 := again (S max) j s in
  let s2 := with_fin s1 j (Some (FErr e)) in
  if max <? r_retries s2 j then finish j s2 else s2.

(** A call of the source after it was subscribed to. *)
Definition late_call (j : nat) (c : call) (s : st) : st :=
  let s1 := with_busy s (Some j) in
  let s2 := match c with Err e => error j e (log s1 (TIn j c)) | _ => easy_call j c s1 end in
  let s3 := with_busy s2 None in
  if r_open s3 j then s3 else sub_unsubscribe j s3.

Inductive act : Type := AIn (j : nat) (c : call) | AUser.
Definition perform (a : act) (s : st) : st :=
  match a with
  | AIn j c => if r_open s j then late_call j c s else s
  | AUser => if r_outer s then s else outer_unsubscribe (log s TUser)
  end.
Definition run (h : list act) : st := fold_left (fun s a => perform a s) h subscribe.
End Retry.
Arguments FCmp {E}.
Arguments TSub {A E} j.
Arguments TEnd {A E} j.
Arguments TUser {A E}.
Arguments AUser {A E}.
Arguments init {A E}.
