(** Operators and observables that use a scheduler, running on the executor of
    SchedModel.v next to arbitrary other tasks. No proofs in this file. *)
From Coq Require Import ZArith.
From Verif Require Import Base SubscrModel SchedModel.
Set Implicit Arguments.

(** What is recorded: the subscription, ticks of the executor ([XTick] when one begins, with
    the time it was given, [XEnd] when it has ended), calls made by the source, and what the
    destination is told. *)
Inductive tev (A B E : Type) : Type :=
| XSub
| XTick (t : nat)
| XEnd
| XUp (c : ncall A E)
| XOut (c : ncall B E).
Arguments XSub {A B E}.
Arguments XTick {A B E} t.
Arguments XEnd {A B E}.
Arguments XUp {A B E} c.
Arguments XOut {A B E} c.

Definition outs {A B E} (l : list (tev A B E)) : list (ncall B E) :=
  flat_map (fun e => match e with XOut c => [c] | _ => [] end) l.

(** The closures on the scheduler: of the operator, or of someone else. *)
Inductive clo (O X : Type) : Type := KO (o : O) | KX (x : X).
Arguments KO {O X} o.
Arguments KX {O X} x.

(** Everyone else uses other cancellation ids than the operator, which has 0
    ([generate_cancellation_id] hands out each id once, ticking_scheduler.rs:99-105). *)
Definition theirs {O X} (r : req X) : req (clo O X) :=
  match r with
  | QSched cid kd x => QSched (S cid) kd (KX x)
  | QCancel cid => QCancel (S cid)
  | QAddInv iid kd x => QAddInv iid kd (KX x)
  | QInvoke iid => QInvoke iid
  | QCancelInv iid => QCancelInv iid
  end.

Section World.
Variables A B E S O X : Type.

(** The operator's own state, the destination (is it closed), whether the source is over
    (it made its terminal call, or was unsubscribed), whether a closure of the operator
    panicked, the record, and the requests made to the scheduler in the current call. *)
Record world : Type := mkW {
  w_st : S;
  w_born : bool;
  w_shut : bool;
  w_over : bool;
  w_panic : bool;
  w_tr : list (tev A B E);
  w_rs : list (req (clo O X))
}.

Definition st (s : S) (w : world) : world :=
  mkW s (w_born w) (w_shut w) (w_over w) (w_panic w) (w_tr w) (w_rs w).
Definition note (e : tev A B E) (w : world) : world :=
  mkW (w_st w) (w_born w) (w_shut w) (w_over w) (w_panic w) (w_tr w ++ [e]) (w_rs w).
Definition ask (r : req (clo O X)) (w : world) : world :=
  mkW (w_st w) (w_born w) (w_shut w) (w_over w) (w_panic w) (w_tr w) (w_rs w ++ [r]).
Definition clear (w : world) : world :=
  mkW (w_st w) (w_born w) (w_shut w) (w_over w) (w_panic w) (w_tr w) [].
Definition set_shut (w : world) : world :=
  mkW (w_st w) (w_born w) true (w_over w) (w_panic w) (w_tr w) (w_rs w).
Definition set_over (w : world) : world :=
  mkW (w_st w) (w_born w) (w_shut w) true (w_panic w) (w_tr w) (w_rs w).
Definition set_born (w : world) : world :=
  mkW (w_st w) true (w_shut w) (w_over w) (w_panic w) (w_tr w) (w_rs w).
Definition set_panic (w : world) : world :=
  mkW (w_st w) (w_born w) (w_shut w) (w_over w) true (w_tr w) (w_rs w).

(** The destination: any subscriber that keeps the contracts. Told something while open, it
    may close itself and may use the scheduler (it does not call back into the operator).
    [torn]: the operator registered a teardown there that cancels its tasks
    ([Teardown::new_work_cancellation]). *)
Variable torn : bool.
Variable down : list (ncall B E) -> bool * list (req X).

Definition shut (w : world) : world :=
  if w_shut w then w else if torn then ask (QCancel 0) (set_shut w) else set_shut w.
Definition tell (c : ncall B E) (w : world) : world :=
  if w_shut w then w else
  let w1 := note (XOut c) w in
  let '(close, rs) := down (outs (w_tr w1)) in
  let w2 := fold_left (fun w r => ask (theirs r) w) rs w1 in
  match c with
  | Nxt _ => if close then shut w2 else w2
  | _ => shut w2
  end.
End World.

(** An operator: what it does when subscribed, when called by its source, and in its
    closures (result: the closure's own new state, whether it is done). *)
Record timed (A B E S O X : Type) : Type := mkTimed {
  t_torn : bool;
  t_new : S;
  t_sub : (ncall B E -> world A B E S O X -> world A B E S O X) ->
          world A B E S O X -> world A B E S O X;
  t_up : (ncall B E -> world A B E S O X -> world A B E S O X) ->
         ncall A E -> world A B E S O X -> world A B E S O X;
  t_run : (ncall B E -> world A B E S O X -> world A B E S O X) ->
          O -> nat -> world A B E S O X -> O * bool * world A B E S O X
}.

Section System.
Variables A B E S O X : Type.
Variable T : timed A B E S O X.
Variable down : list (ncall B E) -> bool * list (req X).
Notation W := (world A B E S O X).

(** What everyone else can do: call the operator as its source, and use the scheduler. *)
Inductive cmd : Type :=
| CSub
| CUp (c : ncall A E)
| CReq (r : req X).

(** A source makes no calls before the subscription, and only unsubscribes after it is over
    (all modelled sources keep to this, see C01 and C12). *)
Definition up (c : ncall A E) (w : W) : W :=
  if negb (w_born w) then w else
  match c with
  | Nxt _ => if w_over w then w else t_up T (tell (t_torn T) down) c (note (XUp c) w)
  | Uns => t_up T (tell (t_torn T) down) c (set_over (note (XUp c) w))
  | _ => if w_over w then w else t_up T (tell (t_torn T) down) c (set_over (note (XUp c) w))
  end.
Definition do_cmd (w : W) (c : cmd) : W :=
  match c with
  | CSub => if w_born w then w else t_sub T (tell (t_torn T) down) (note XSub (set_born w))
  | CUp c => up c w
  | CReq r => ask (theirs r) w
  end.

(** Tasks that are not the operator's do anything, depending on all that happened. *)
Variable user : X -> nat -> list (tev A B E) -> X * bool * list cmd.

Definition run (k : clo O X) (t : nat) (w : W) : clo O X * bool * W * list (req (clo O X)) :=
  match k with
  | KO o => let '(o', done, w') := t_run T (tell (t_torn T) down) o t (clear w) in
            (KO o', done, w', w_rs w')
  | KX x => let '(x', done, cs) := user x t (w_tr w) in
            let w' := fold_left do_cmd cs (clear w) in
            (KX x', done, w', w_rs w')
  end.

Notation M := (mach (clo O X) W).

(** The whole system: things done between ticks, and ticks. *)
Inductive sact : Type :=
| SDo (cs : list cmd)
| STick (delta : nat)
| STickTo (t : nat).

Definition begin (t : nat) (m : M) : M := set_world m (note (XTick t) (m_world m)).
Definition ended (o : outcome (clo O X) W) : outcome (clo O X) W :=
  match o with
  | Fine m => Fine (set_world m (note XEnd (m_world m)))
  | o => o
  end.

Definition sys (fuel : nat) (m : M) (a : sact) : outcome (clo O X) W :=
  match a with
  | SDo cs => let w := fold_left do_cmd cs (clear (m_world m)) in step run fuel m (HDo w (w_rs w))
  | STick d => ended (step run fuel (begin (m_now m + d) m) (HTick d))
  | STickTo t => ended (step run fuel (begin t m) (HTickTo t))
  end.

Fixpoint syss (fuel : nat) (m : M) (h : list sact) : outcome (clo O X) W :=
  match h with
  | [] => Fine m
  | a :: h' => match sys fuel m a with Fine m' => syss fuel m' h' | o => o end
  end.

Definition start (depth : nat) : M :=
  boot depth (mkW (t_new T) false false false false [] []).
End System.
Arguments CSub {A E X}.
Arguments CUp {A E X} c.
Arguments CReq {A E X} r.
Arguments SDo {A E X} cs.
Arguments STick {A E X} delta.
Arguments STickTo {A E X} t.

(** *** delay, rx_core_operator_delay/src/delay_subscriber.rs. The counter wraps around
    below zero in the code ([fetch_sub]); here it is an integer. *)
Record counted : Type := mkCt {
  ct_done : bool;       (* upstream_completed *)
  ct_off : bool;        (* upstream_unsubscribed *)
  ct_n : Z              (* scheduled_work_counter *)
}.

Section Delay.
Variables A E X : Type.
Notation W O := (world A A E counted O X).

(** The closure of a value, :76-101 (observe_on :67-92 is the same). *)
Definition deliver {O} (after : Z -> Z) (tell : ncall A E -> W O -> W O) (a : A) (w : W O) : W O :=
  let w1 := if w_shut w then w else tell (Nxt a) w in
  let s := w_st w1 in
  let w2 := st (mkCt (ct_done s) (ct_off s) (after (ct_n s))) w1 in
  if ct_done s && (ct_n s =? 1)%Z && negb (w_shut w2) then tell Cmp w2
  else if ct_off s && (ct_n s =? 1)%Z && negb (w_shut w2) then tell Uns w2 else w2.

Definition delay_up (d : nat) (tell : ncall A E -> W A -> W A) (c : ncall A E) (w : W A) : W A :=
  let s := w_st w in
  match c with
  | Nxt a =>                                                       (* :68-105 *)
      ask (QSched 0 (KDelayed d) (KO a)) (st (mkCt (ct_done s) (ct_off s) (ct_n s + 1)) w)
  | Err e =>                                                       (* :108-113 *)
      tell (Err e) (ask (QCancel 0) (st (mkCt (ct_done s) true 0) w))
  | Cmp =>                                                         (* :116-125 *)
      let w1 := st (mkCt true true (ct_n s)) w in
      if (ct_n s =? 0)%Z then tell Cmp w1 else w1
  | Uns =>                                                         (* :134-148, also on drop *)
      if w_shut w || ct_off s then w else
      let w1 := st (mkCt (ct_done s) true (ct_n s)) w in
      if (ct_n s =? 0)%Z then tell Uns w1 else w1
  end.

Definition delay (d : nat) : timed A A E counted A X :=
  {| t_torn := true;                                               (* :45-49 *)
     t_new := mkCt false false 0;
     t_sub := fun _ w => w;
     t_up := delay_up d;
     t_run := fun tell a _ w => (a, true, deliver (fun n => n - 1)%Z tell a w) |}.

(** *** observe_on, rx_core_operator_observe_on/src/observe_on_subscriber.rs. The closure
    [None] is the one of :116-118. *)
Definition observe_on_up (tell : ncall A E -> W (option A) -> W (option A)) (c : ncall A E)
    (w : W (option A)) : W (option A) :=
  let s := w_st w in
  match c with
  | Nxt a =>                                                       (* :59-95 *)
      ask (QSched 0 KImmediate (KO (Some a))) (st (mkCt (ct_done s) (ct_off s) (ct_n s + 1)) w)
  | Err e => tell (Err e) (st (mkCt (ct_done s) true (ct_n s)) w)  (* :98-101 *)
  | Cmp =>                                                         (* :104-122 *)
      let w1 := st (mkCt true true (ct_n s)) w in
      if (ct_n s =? 0)%Z then tell Cmp w1 else ask (QSched 0 KImmediate (KO None)) w1
  | Uns =>                                                         (* :131-145 *)
      if w_shut w then w else
      let w1 := st (mkCt (ct_done s) true (ct_n s)) w in
      if (ct_n s =? 0)%Z then tell Uns w1 else w1
  end.

Definition observe_on : timed A A E counted (option A) X :=
  {| t_torn := true;                                               (* :38-41 *)
     t_new := mkCt false false 0;
     t_sub := fun _ w => w;
     t_up := observe_on_up;
     t_run := fun tell o _ w =>
       (o, true, match o with
                 | Some a => deliver (fun n => n - 1)%Z tell a w
                 | None => let s := w_st w in st (mkCt (ct_done s) (ct_off s) (ct_n s - 1)) w
                 end) |}.

(** *** debounce_time, rx_core_operator_debounce_time/src/debounce_time_subscriber.rs. *)
Definition debounce_up (d : nat) (tell : ncall A E -> W A -> W A) (c : ncall A E) (w : W A) : W A :=
  let s := w_st w in
  match c with
  | Nxt a =>                                                       (* :68-107 *)
      ask (QSched 0 (KDelayed d) (KO a))
        (st (mkCt (ct_done s) (ct_off s) 1) (ask (QCancel 0) w))
  | Err e =>                                                       (* :110-115 *)
      tell (Err e) (ask (QCancel 0) (st (mkCt (ct_done s) true 0) w))
  | Cmp =>                                                         (* :118-127 *)
      let w1 := st (mkCt true true (ct_n s)) w in
      if (ct_n s =? 0)%Z then tell Cmp w1 else w1
  | Uns =>                                                         (* :136-150 *)
      if w_shut w || ct_off s then w else
      let w1 := st (mkCt (ct_done s) true (ct_n s)) w in
      if (ct_n s =? 0)%Z then tell Uns w1 else w1
  end.

Definition debounce (d : nat) : timed A A E counted A X :=
  {| t_torn := true;                                               (* :45-49 *)
     t_new := mkCt false false 0;
     t_sub := fun _ w => w;
     t_up := debounce_up d;
     t_run := fun tell a _ w => (a, true, deliver (fun _ => 0)%Z tell a w) |}.
End Delay.

(** *** throttle_time, rx_core_operator_throttle_time/src/throttle_time_subscriber.rs. *)
Section Throttle.
Variables A E X : Type.

Record throttle_st : Type := mkTh {
  th_value : option A;        (* last_value *)
  th_last : nat;              (* last_tick_time *)
  th_deadline : option nat;   (* throttle_deadline *)
  th_done : bool;             (* upstream_state: completed *)
  th_off : bool               (* upstream_state: errored or unsubscribed *)
}.
Notation W := (world A A E throttle_st unit X).
Variables (d : nat) (leading trailing : bool).

(** :114-116, :222 and so on: [has_pending_trailing] (:28-30). *)
Definition th_idle (s : throttle_st) : bool :=
  match th_deadline s with None => true | Some _ => false end ||
  negb (trailing && match th_value s with Some _ => true | None => false end).

Definition throttle_up (tell : ncall A E -> W -> W) (c : ncall A E) (w : W) : W :=
  let s := w_st w in
  match c with
  | Nxt a =>                                                       (* :164-200 *)
      match th_deadline s with
      | None =>
          let s1 := mkTh (th_value s) (th_last s) (Some (th_last s + d)) (th_done s) (th_off s) in
          let w1 :=
            if leading then tell (Nxt a) (st s1 w)
            else if trailing then
              st (mkTh (Some a) (th_last s) (Some (th_last s + d)) (th_done s) (th_off s)) w
            else st s1 w in
          ask (QSched 0 KContinuous (KO tt)) w1
      | Some t =>
          if th_last s <? t then
            if trailing then st (mkTh (Some a) (th_last s) (Some t) (th_done s) (th_off s)) w else w
          else st (mkTh (Some a) (th_last s) (Some (th_last s + d)) (th_done s) (th_off s)) w
      end
  | Err e =>                                                       (* :203-211 *)
      tell (Err e) (ask (QCancel 0) (st (mkTh None (th_last s) None (th_done s) true) w))
  | Cmp =>                                                         (* :214-231 *)
      if th_idle s then
        tell Cmp (ask (QCancel 0) (st (mkTh None (th_last s) None true (th_off s)) w))
      else st (mkTh (th_value s) (th_last s) (th_deadline s) true (th_off s)) w
  | Uns =>                                                         (* :240-269 *)
      if w_shut w || th_done s || th_off s then w
      else if th_idle s then
        tell Uns (ask (QCancel 0) (st (mkTh None (th_last s) None (th_done s) true) w))
      else st (mkTh (th_value s) (th_last s) (th_deadline s) (th_done s) true) w
  end.

(** The closure of :86-151; [tick.now()] is the time it is given. *)
Definition throttle_run (tell : ncall A E -> W -> W) (t : nat) (w : W) : bool * W :=
  let s := w_st w in
  match th_deadline s with
  | None => (true, set_panic w)                                    (* :93 *)
  | Some dl =>
      if t <? dl then (false, st (mkTh (th_value s) t (Some dl) (th_done s) (th_off s)) w)
      else
        let '(go_on, emit, s1) :=
          if dl <? t then (false, None, mkTh (th_value s) t None (th_done s) (th_off s))
          else if trailing then
            match th_value s with
            | Some a => (true, Some a, mkTh None t (Some dl) (th_done s) (th_off s))
            | None => (false, None, mkTh None t None (th_done s) (th_off s))
            end
          else (false, None, mkTh None t None (th_done s) (th_off s)) in
        let w1 := st s1 w in
        let w2 := match emit with Some a => tell (Nxt a) w1 | None => w1 end in
        if match emit with Some _ => w_shut w2 | None => false end then (true, w2)
        else if th_done s then (true, tell Cmp w2)
        else if th_off s then (true, tell Uns w2)
        else (negb go_on, w2)
  end.

Definition throttle : timed A A E throttle_st unit X :=
  {| t_torn := true;                                               (* :62-65 *)
     t_new := mkTh None 0 None false false;
     t_sub := fun _ w => w;
     t_up := throttle_up;
     t_run := fun tell _ t w => let '(done, w') := throttle_run tell t w in (tt, done, w') |}.
End Throttle.

(** *** fallback_when_silent, rx_core_operator_fallback_when_silent/src/
    fallback_when_silent_subscriber.rs. The state is [next_observed_this_tick]; the closure
    counts its calls. The fallback function gets the time and that number. *)
Definition fallback {A E X} (fb : nat -> nat -> A) : timed A A E (option A) nat X :=
  {| t_torn := false;
     t_new := None;
     t_sub := fun _ w => ask (QSched 0 KContinuous (KO 0)) w;      (* :66-83 *)
     t_up := fun tell c w =>
       match c with
       | Nxt a => st (Some a) w                                    (* :107-113 *)
       | Uns => tell Uns (ask (QCancel 0) w)                       (* :145-148 *)
       | c => tell Uns (ask (QCancel 0) (tell c w))                (* :116-125 *)
       end;
     t_run := fun tell i t w =>                                    (* :69-81 *)
       let a := match w_st w with Some a => a | None => fb t i end in
       (S i, false, tell (Nxt a) (st None w)) |}.

(** *** interval, rx_core_observable_interval/src/interval_subscription.rs. There is no source;
    [Uns] is [unsubscribe] of the subscription (and its drop). *)
Definition interval {A E X} (d : nat) (now : bool) (cap : nat) : timed A nat E unit nat X :=
  {| t_torn := true;                                               (* :72-74 *)
     t_new := tt;
     t_sub := fun tell w =>                                        (* :34-75 *)
       let w1 := if now then tell (Nxt 0) w else w in
       let w2 := ask (QSched 0 (KRepeating d false cap) (KO (if now then 1 else 0))) w1 in
       if w_shut w1 then ask (QCancel 0) w2 else w2;               (* added to a closed destination *)
     t_up := fun tell c w =>
       match c with
       | Uns => let w1 := ask (QCancel 0) w in                     (* :93-98 *)
                if w_shut w then w1 else tell Uns w1
       | _ => w
       end;
     t_run := fun tell n _ w =>                                    (* :50-61 *)
       if w_shut w then (n, true, w) else (S n, false, tell (Nxt n) w) |}.

(** *** timer, rx_core_observable_timer/src/timer_subscription.rs. The state is
    [cancellation_id]. *)
Definition timer {A E X} (d : nat) : timed A unit E bool unit X :=
  {| t_torn := false;
     t_new := true;
     t_sub := fun _ w => ask (QSched 0 (KDelayed d) (KO tt)) w;    (* :35-52 *)
     t_up := fun tell c w =>
       match c with
       | Uns => let w1 := if w_st w then ask (QCancel 0) (st false w) else w in   (* :71-79 *)
                if w_shut w then w1 else tell Uns w1
       | _ => w
       end;
     t_run := fun tell _ _ w =>                                    (* :40-46 *)
       let w1 := tell (Nxt tt) w in
       (tt, true, if w_shut w1 then w1 else tell Cmp w1) |}.

(** *** iterator_on_tick, rx_core_observable_iterator_on_tick/src/
    iterator_on_tick_subscription.rs for [n > 0] (for [n = 0] no scheduler is used,
    iterator_on_tick_observable.rs:74-86). An iterator is the function from the number of
    items taken to the next item; simplified: [None] is not followed by further items. The
    closure has [observed_ticks] and that number. *)
Definition on_tick {A B E X} (item : nat -> option B) (n : nat) (now : bool)
  : timed A B E unit (nat * nat) X :=
  {| t_torn := false;
     t_new := tt;
     t_sub := fun tell w =>                                        (* :66-114 *)
       let '(p, w1) :=
         if now then match item 0 with Some b => (1, tell (Nxt b) w) | None => (0, w) end
         else (0, w) in
       ask (QSched 0 KContinuous (KO (0, p))) w1;
     t_up := fun tell c w =>
       match c with
       | Uns => tell Uns (ask (QCancel 0) w)                       (* :137-142 *)
       | _ => w
       end;
     t_run := fun tell '(seen, p) _ w =>                           (* :85-110 *)
       if w_shut w then ((S seen, p), true, w)
       else if S seen mod n =? 0 then
         match item p with
         | Some b =>
             let w1 := tell (Nxt b) w in
             match item (S p) with
             | None => ((0, S p), true, tell Cmp w1)
             | Some _ => ((0, S p), false, w1)
             end
         | None => ((S seen, p), false, w)
         end
       else ((S seen, p), false, w) |}.
