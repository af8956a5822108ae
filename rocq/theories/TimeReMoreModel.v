(** fallback_when_silent and throttle_time with a destination that calls the source back while it is
    told something, as TimeReModel.v has it for delay and others. No proofs in this file.

    Their tasks do not hold the destination's lock, but make calls on a clone of the
    [SharedSubscriber]: the queue of what was deferred during such a call is applied at its end. The
    state of the operator is not locked meanwhile
    (crates/rx_core_operator_fallback_when_silent/src/fallback_when_silent_subscriber.rs:70-78,
    crates/rx_core_operator_throttle_time/src/throttle_time_subscriber.rs:87-128). The state of
    throttle_time is locked while a value is told with the leading edge (:166, :173), but then the
    source is making the call that told the value. *)
From Coq Require Import ZArith.
From Verif Require Import Base SubscrModel SchedModel TimeModel TimeReModel.
Set Implicit Arguments.

Section Through.
Variables C A E X K : Type.
Notation W := (world A A E (loop_st C A E) K X).
Notation call := (ncall A E).
Variable op_up : up_fn C A E X K.
Variable answer : list call -> list call.
Notation settle := (settle op_up answer).
Notation hit := (hit op_up answer).

(** A call made by a task: crates/rx_core_common/src/subscribers/subscriber_shared.rs:325-361, :377-392, with :247-307.
    At the end [try_apply_deferred] (:191-200). *)
Definition through (tell : call -> W -> W) : call -> W -> W := fun c w =>
  let w0 := settle tell w in
  let s := dfr w0 in
  settle tell
    (match c with
     | Nxt _ => if is_closed w then w else hit tell c w0
     | Err _ => if is_closed w then w
                else hit tell c (set_df (mkDf (df_q s) (df_closed s) (df_uns s) (df_cmp s) true) w0)
     | Cmp => if is_closed w then w
              else hit tell c (set_df (mkDf (df_q s) (df_closed s) (df_uns s) true (df_err s)) w0)
     | Uns => if df_uns (dfr w) then w
              else hit tell c (set_df (mkDf (df_q s) true true (df_cmp s) (df_err s)) w0)
     end).
End Through.

(** *** fallback_when_silent. *)
Section Fallback.
Variables A E X : Type.
Variable answer : list (ncall A E) -> list (ncall A E).
Variable fb : nat -> nat -> A.

Definition fallback_op : up_fn (option A) A E X nat := fun _ tell c w =>
  match c with
  | Nxt a => set_ct (Some a) w                                     (* fallback_when_silent_subscriber.rs:107-113 *)
  | Uns => tell Uns (ask (QCancel 0) w)                            (* :145-148 *)
  | c => tell Uns (ask (QCancel 0) (tell c w))                     (* :116-125 *)
  end.
Definition fallback_loop : timed A A E (loop_st (option A) A E) nat X :=
  {| t_torn := false;
     t_new := loop_new A E None;
     t_sub := fun _ w => ask (QSched 0 KContinuous (KO 0)) w;      (* :66-83 *)
     t_up := fun tell => fallback_op (@is_closed (option A) A E X nat) (shared fallback_op answer tell);
     t_run := fun tell i t w =>                                    (* :69-81 *)
       let a := match ctr w with Some a => a | None => fb t i end in
       (S i, false, through fallback_op answer tell (Nxt a) (set_ct None w)) |}.
End Fallback.

(** *** throttle_time. *)
Section Throttle.
Variables A E X : Type.
Variable answer : list (ncall A E) -> list (ncall A E).
Notation W := (world A A E (loop_st (throttle_st A) A E) unit X).
Variables (d : nat) (leading trailing : bool).

Definition throttle_op : up_fn (throttle_st A) A E X unit := fun closed tell c w =>
  let s := ctr w in
  match c with
  | Nxt a =>                                                       (* throttle_time_subscriber.rs:164-200 *)
      match th_deadline s with
      | None =>
          let s1 := mkTh (th_value s) (th_last s) (Some (th_last s + d)) (th_done s) (th_off s) in
          let w1 :=
            if leading then tell (Nxt a) (set_ct s1 w)
            else if trailing then
              set_ct (mkTh (Some a) (th_last s) (Some (th_last s + d)) (th_done s) (th_off s)) w
            else set_ct s1 w in
          ask (QSched 0 KContinuous (KO tt)) w1
      | Some t =>
          if th_last s <? t then
            if trailing then set_ct (mkTh (Some a) (th_last s) (Some t) (th_done s) (th_off s)) w else w
          else set_ct (mkTh (Some a) (th_last s) (Some (th_last s + d)) (th_done s) (th_off s)) w
      end
  | Err e =>                                                       (* :203-211 *)
      tell (Err e) (ask (QCancel 0) (set_ct (mkTh None (th_last s) None (th_done s) true) w))
  | Cmp =>                                                         (* :214-231 *)
      if th_idle trailing s then
        tell Cmp (ask (QCancel 0) (set_ct (mkTh None (th_last s) None true (th_off s)) w))
      else set_ct (mkTh (th_value s) (th_last s) (th_deadline s) true (th_off s)) w
  | Uns =>                                                         (* :240-269 *)
      if closed w || th_done s || th_off s then w
      else if th_idle trailing s then
        tell Uns (ask (QCancel 0) (set_ct (mkTh None (th_last s) None (th_done s) true) w))
      else set_ct (mkTh (th_value s) (th_last s) (th_deadline s) (th_done s) true) w
  end.

(** The closure of :86-151; what it does after telling the value was decided before (:118-127). *)
Definition throttle_task (tell : ncall A E -> W -> W) (t : nat) (w : W) : bool * W :=
  let s := ctr w in
  match th_deadline s with
  | None => (true, set_panic w)                                    (* :93 *)
  | Some dl =>
      if t <? dl then (false, set_ct (mkTh (th_value s) t (Some dl) (th_done s) (th_off s)) w)
      else
        let '(go_on, emit, s1) :=
          if dl <? t then (false, None, mkTh (th_value s) t None (th_done s) (th_off s))
          else if trailing then
            match th_value s with
            | Some a => (true, Some a, mkTh None t (Some dl) (th_done s) (th_off s))
            | None => (false, None, mkTh None t None (th_done s) (th_off s))
            end
          else (false, None, mkTh None t None (th_done s) (th_off s)) in
        let w1 := set_ct s1 w in
        let w2 := match emit with Some a => through throttle_op answer tell (Nxt a) w1 | None => w1 end in
        if match emit with Some _ => is_closed w2 | None => false end then (true, w2)
        else if th_done s then (true, through throttle_op answer tell Cmp w2)
        else if th_off s then (true, through throttle_op answer tell Uns w2)
        else (negb go_on, w2)
  end.
Definition throttle_loop : timed A A E (loop_st (throttle_st A) A E) unit X :=
  {| t_torn := true;                                               (* :62-65 *)
     t_new := loop_new A E (mkTh None 0 None false false);
     t_sub := fun _ w => w;
     t_up := fun tell => throttle_op (@is_closed (throttle_st A) A E X unit) (shared throttle_op answer tell);
     t_run := fun tell _ t w => let '(done, w') := throttle_task tell t w in (tt, done, w') |}.
End Throttle.
