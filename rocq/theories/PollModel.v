(** The observables that look at the Bevy world in every tick: messages, resources and the
    keyboard. Each schedules one continuous task. No proofs in this file.

    In [timed] (TimeModel.v) the "source" of these is the world: [CUp (Nxt a)] is an operation
    on what is looked at ([a]), [CUp Uns] is [unsubscribe] on the subscription. Operations
    before the subscription are in the state it starts with. *)
From Verif Require Import Base SubscrModel SchedModel TimeModel.
Set Implicit Arguments.

(** What all three do around the task: schedule it, and add a teardown to the destination
    that cancels it (rx_bevy_observable_message/src/message_subscription.rs:23-61,
    rx_bevy_observable_keyboard/src/keyboard_subscription.rs:23-68,
    rx_bevy_observable_resource/src/resource_subscription.rs:34-91); [unsubscribe] is the
    destination's ([rx_delegate_subscription_like_to_destination]). [S]: the part of the
    world it looks at; [step]: what operations do to it. *)
Definition polling {A B E S O X} (s : S) (step : A -> S -> S) (o : O)
    (task : (ncall B E -> world A B E S O X -> world A B E S O X) -> O ->
            world A B E S O X -> O * bool * world A B E S O X) : timed A B E S O X :=
  {| t_torn := true;
     t_new := s;
     t_sub := fun _ w => ask (QSched 0 KContinuous (KO o)) w;
     t_up := fun tell c w =>
       match c with
       | Nxt a => st (step a (w_st w)) w
       | Uns => tell Uns w
       | _ => w
       end;
     t_run := fun tell o _ w => task tell o w |}.

(** *** Messages. Bevy's [Messages] keeps two buffers; [update] (once per frame) drops the
    older one. [ms_start] is the number of messages dropped so far. *)
Record messages (M : Type) : Type := mkMs {
  ms_start : nat;
  ms_old : list M;
  ms_new : list M
}.
Inductive mop (M : Type) : Type := MWrite (m : M) | MUpdate.
Arguments MUpdate {M}.

Definition mstep {M} (a : mop M) (s : option (messages M)) : option (messages M) :=
  match s with
  | None => None
  | Some s =>
      Some match a with
           | MWrite m => mkMs (ms_start s) (ms_old s) (ms_new s ++ [m])
           | MUpdate => mkMs (ms_start s + length (ms_old s)) (ms_new s) []
           end
  end.

(** [MessageCursor::read]: the messages the cursor has not seen that are still there; then
    the cursor is behind the last one. (It moves one by one in the code; the difference
    shows only if the loop is left, and then the task is done.) *)
Definition unread {M} (cursor : nat) (s : messages M) : list M :=
  skipn (cursor - ms_start s) (ms_old s ++ ms_new s).
Definition behind {M} (cursor : nat) (s : messages M) : nat :=
  Nat.max cursor (ms_start s + length (ms_old s ++ ms_new s)).

Section Message.
Variables M E X : Type.
Notation W := (world (mop M) M E (option (messages M)) nat X).

(** message_subscription.rs:43-49 *)
Fixpoint each_message (tell : ncall M E -> W -> W) (ms : list M) (w : W) : bool * W :=
  match ms with
  | [] => (false, w)
  | m :: ms' => let w1 := tell (Nxt m) w in
                if w_shut w1 then (true, w1) else each_message tell ms' w1
  end.

(** :33-52. Panics if the messages are not registered with the app (:34-36). *)
Definition message_task (tell : ncall M E -> W -> W) (cursor : nat) (w : W) : nat * bool * W :=
  match w_st w with
  | None => (cursor, true, set_panic w)
  | Some s =>
      if w_shut w then (cursor, true, w)
      else let '(done, w1) := each_message tell (unread cursor s) w in (behind cursor s, done, w1)
  end.

(** The cursor starts at 0 ([MessageCursor::default], :30). *)
Definition message (s : option (messages M)) : timed (mop M) M E (option (messages M)) nat X :=
  polling s mstep 0 message_task.
End Message.

(** *** Keyboard. Bevy's [ButtonInput]: the keys that are down, and those that went down or
    up since the last [clear] (once per frame). The sets are lists without duplicates;
    [order] is the order in which a set is iterated, which Bevy does not specify. *)
Record keys (K : Type) : Type := mkKeys {
  ks_down : list K;
  ks_went_down : list K;
  ks_went_up : list K
}.
Inductive kop (K : Type) : Type := KPress (k : K) | KRelease (k : K) | KClear.
Arguments KClear {K}.
Inductive kmode : Type := JustPressed | WhilePressed | JustReleased.

Section Keyboard.
Variables K E X : Type.
Variable eqb : K -> K -> bool.
Variable order : list K -> list K.

Definition has (k : K) (l : list K) : bool := existsb (eqb k) l.
Definition insert (k : K) (l : list K) : list K := if has k l then l else l ++ [k].

(** [ButtonInput::press], [release] and [clear]. *)
Definition kstep (a : kop K) (s : option (keys K)) : option (keys K) :=
  match s with
  | None => None
  | Some s =>
      Some match a with
           | KPress k => if has k (ks_down s) then s
                         else mkKeys (insert k (ks_down s)) (insert k (ks_went_down s)) (ks_went_up s)
           | KRelease k => if has k (ks_down s)
                           then mkKeys (filter (fun j => negb (eqb k j)) (ks_down s)) (ks_went_down s)
                                       (insert k (ks_went_up s))
                           else s
           | KClear => mkKeys (ks_down s) [] []
           end
  end.

Notation W := (world (kop K) K E (option (keys K)) unit X).

(** keyboard_subscription.rs:38-48 *)
Definition looked_at (m : kmode) (s : keys K) : list K :=
  match m with
  | JustPressed => ks_went_down s
  | JustReleased => ks_went_up s
  | WhilePressed => ks_down s
  end.

(** :50-57 *)
Fixpoint each_key (tell : ncall K E -> W -> W) (ks : list K) (w : W) : bool * W :=
  match ks with
  | [] => (false, w)
  | k :: ks' => if w_shut w then (true, w) else each_key tell ks' (tell (Nxt k) w)
  end.

(** :36-58. Panics without the resource (:37). *)
Definition keyboard_task (m : kmode) (tell : ncall K E -> W -> W) (o : unit) (w : W) : unit * bool * W :=
  match w_st w with
  | None => (tt, true, set_panic w)
  | Some s => let '(done, w1) := each_key tell (order (looked_at m s)) w in (tt, done, w1)
  end.

Definition keyboard (m : kmode) (s : option (keys K)) : timed (kop K) K E (option (keys K)) unit X :=
  polling s kstep tt (keyboard_task m).
End Keyboard.

(** *** A resource: its value if it exists, and what [is_resource_changed] says (set by the
    world; nothing is assumed about it). *)
Section Resource.
Variables R B E X : Type.
Variable reader : R -> B.
Variables on_added on_changed : bool.   (* resource_observable_options.rs *)
Notation V := (bool * option R)%type.
Notation W := (world V B E V bool X).

(** resource_subscription.rs:49-78; the closure has [resource_existed_in_the_previous_tick]. *)
Definition resource_task (tell : ncall B E -> W -> W) (existed : bool) (w : W) : bool * bool * W :=
  let '(is_changed, resource) := w_st w in
  let exists_ := match resource with Some _ => true | None => false end in
  let is_added := negb existed && exists_ in
  let w1 := match resource with
            | Some r => if (on_changed && is_changed && negb is_added) || (on_added && is_added)
                        then tell (Nxt (reader r)) w else w
            | None => w
            end in
  (exists_, w_shut w1, w1).

Definition resource (v : V) : timed V B E V bool X :=
  polling v (fun v' _ => v') false resource_task.
End Resource.
