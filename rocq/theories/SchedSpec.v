(** What the log of a scheduler and its executor says, without reference to how they
    work. No proofs in this file. *)
From Verif Require Import Base SchedModel.
Set Implicit Arguments.

(** The time after the events [l]: the latest tick. *)
Fixpoint now_from (now : nat) (l : list ev) : nat :=
  match l with
  | [] => now
  | ETick t :: l' => now_from (Nat.max now t) l'
  | _ :: l' => now_from now l'
  end.
Definition now_of (l : list ev) : nat := now_from 0 l.

(** The times at which the task [id] was ticked, and at which its closure was run. *)
Fixpoint ticks_from (now id : nat) (l : list ev) : list nat :=
  match l with
  | [] => []
  | ETick t :: l' => ticks_from (Nat.max now t) id l'
  | EWork j :: l' => if j =? id then now :: ticks_from now id l' else ticks_from now id l'
  | _ :: l' => ticks_from now id l'
  end.
Definition ticks_of (id : nat) (l : list ev) : list nat := ticks_from 0 id l.

Fixpoint runs_from (now : nat) (id : nat) (l : list ev) : list nat :=
  match l with
  | [] => []
  | ETick t :: l' => runs_from (Nat.max now t) id l'
  | ERan (OWork j) _ :: l' =>
      if j =? id then now :: runs_from now id l' else runs_from now id l'
  | _ :: l' => runs_from now id l'
  end.
Definition runs_of (id : nat) (l : list ev) : list nat := runs_from 0 id l.

(** How often the task [id] was ticked, and its closure run. *)
Definition ticked (id : nat) (l : list ev) : nat :=
  length (filter (fun e => match e with EWork j => j =? id | _ => false end) l).
Definition ran (id : nat) (l : list ev) : nat :=
  length (filter (fun e => match e with ERan (OWork j) _ => j =? id | _ => false end) l).

(** The tasks ticked, in order; the tasks scheduled, in order. *)
Fixpoint works (l : list ev) : list nat :=
  match l with
  | [] => []
  | EWork j :: l' => j :: works l'
  | _ :: l' => works l'
  end.
Fixpoint scheduled (l : list ev) : list nat :=
  match l with
  | [] => []
  | ESched j _ _ :: l' => j :: scheduled l'
  | _ :: l' => scheduled l'
  end.

(** The task [id] was scheduled, and since then neither cancelled nor finished. *)
Definition live (id : nat) (l : list ev) : Prop :=
  exists a cid kd b, l = a ++ ESched id cid kd :: b /\
    ~ In (ECancel cid) b /\ ~ In (EDone id) b.

(** How often a task with interval [i], scheduled at [s], fires when it is ticked at the
    times [ts]: once for each whole interval that passed since it was last ticked, and once
    for free the first time if it starts immediately, but at most [cap] times per tick. *)
Fixpoint fires (i cap s prev bonus : nat) (ts : list nat) : nat :=
  match ts with
  | [] => 0
  | t :: ts' =>
      Nat.min cap ((t - s) / i - (prev - s) / i + bonus) + fires i cap s t 0 ts'
  end.

(** The last thing done was to tick the executor. *)
Definition is_tick {K G} (a : act K G) : Prop :=
  match a with HDo _ _ => False | _ => True end.

(** The invocations of invoked tasks that were asked for, and those that ran. *)
Fixpoint asked (l : list ev) : list nat :=
  match l with
  | [] => []
  | EInvoke i :: l' => i :: asked l'
  | _ :: l' => asked l'
  end.
Fixpoint invoked (l : list ev) : list nat :=
  match l with
  | [] => []
  | ERan (OInv i) _ :: l' => i :: invoked l'
  | _ :: l' => invoked l'
  end.

(** The times closures were given. *)
Fixpoint given (l : list ev) : list nat :=
  match l with
  | [] => []
  | ERan _ t :: l' => t :: given l'
  | _ :: l' => given l'
  end.

(** Never decreasing. *)
Fixpoint ascending (l : list nat) : Prop :=
  match l with
  | [] => True
  | a :: l' => Forall (fun b => a <= b) l' /\ ascending l'
  end.
(** Strictly increasing. *)
Fixpoint increasing (l : list nat) : Prop :=
  match l with
  | [] => True
  | a :: l' => Forall (fun b => a < b) l' /\ increasing l'
  end.

(** Requests with positive intervals only. *)
Definition positive_kind (kd : kind) : Prop :=
  match kd with KRepeating i _ _ => 0 < i | _ => True end.
Definition positive_req {K} (r : req K) : Prop :=
  match r with QSched _ kd _ | QAddInv _ kd _ => positive_kind kd | _ => True end.
Definition positive_act {K G} (a : act K G) : Prop :=
  match a with HDo _ rs => Forall positive_req rs | _ => True end.

(** No more firings are ever due than the cap allows. *)
Fixpoint within (i cap s prev bonus : nat) (ts : list nat) : Prop :=
  match ts with
  | [] => True
  | t :: ts' => (t - s) / i - (prev - s) / i + bonus <= cap /\ within i cap s t 0 ts'
  end.

(** Ticked by deltas only. *)
Definition relative {K G} (a : act K G) : Prop :=
  match a with HTickTo _ => False | _ => True end.

(** The latest time a history reaches. *)
Fixpoint horizon {K G} (now : nat) (h : list (act K G)) : nat :=
  match h with
  | [] => now
  | HDo _ _ :: h' => horizon now h'
  | HTick d :: h' => horizon (now + d) h'
  | HTickTo t :: h' => horizon (Nat.max now t) h'
  end.

(** Every invocation asked for is of a task added before. *)
Definition registered (l : list ev) : Prop :=
  forall a i b, l = a ++ EInvoke i :: b -> exists kd, In (EAddInv i kd) a.

(** Invoked tasks satisfy [Pk], and are never cancelled. *)
Definition fair_req {K} (Pk : K -> Prop) (r : req K) : Prop :=
  match r with QAddInv _ kd k => kd = KInvoked /\ Pk k | QCancelInv _ => False | _ => True end.
Definition fair_act {K G} (Pk : K -> Prop) (a : act K G) : Prop :=
  match a with HDo _ rs => Forall (fair_req Pk) rs | _ => True end.
