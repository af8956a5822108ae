(** The ticking scheduler, its executor and the five kinds of work.
    crates/rx_core_scheduler_ticking/src and crates/rx_core_common/src/scheduling.
    No proofs in this file. *)
From Verif Require Import Base.
Set Implicit Arguments.

(** Durations and points in time ([Duration], [Tick] of
    rx_core_scheduler_ticking/src/tick.rs:10-12) are natural numbers; the
    overflow panic of [Duration] is left out. [Tick::update] (tick.rs:19-23). *)
Definition later (now t : nat) : nat := if now <? t then t else now.

(** What is asked of a scheduler when a task is scheduled: the methods of
    [SchedulerScheduleWorkExtension] (scheduling/scheduler.rs:78-140) and
    [TickedInvokedWork] (work/ticked_work_invoked.rs). *)
Inductive kind : Type :=
| KDelayed (d : nat)
| KImmediate
| KRepeating (i : nat) (imm : bool) (cap : nat)
| KContinuous
| KInvoked.

Definition set {A} (f : nat -> A) (i : nat) (a : A) : nat -> A :=
  fun j => if i =? j then a else f j.

Definition mem (i : nat) (l : list nat) : bool := existsb (Nat.eqb i) l.

Section Sched.
(** [K] are the closures given to the scheduler, together with what they captured;
    [G] is the rest of the world. *)
Context {K G : Type}.

(** The five structs in work/*.rs. A [FnOnce] is taken when it is run. *)
Inductive work : Type :=
| WDelayed (on cur d : nat) (k : option K)                 (* ticked_work_once_delayed.rs:46-59 *)
| WImmediate (k : option K)                                (* ticked_work_once_immediate.rs:43-51 *)
| WRepeating (imm : bool) (consumed cur i cap : nat) (k : K) (* ticked_work_repeating.rs:53-68 *)
| WContinuous (last : nat) (k : K)                         (* ticked_work_continuous.rs:44-53 *)
| WInvoked (k : K).                                        (* ticked_work_invoked.rs:43-51 *)

(** The five factories; [NonZero::new(max).unwrap_or(MIN)] of scheduler.rs:110. *)
Definition new_work (kd : kind) (k : K) : work :=
  match kd with
  | KDelayed d => WDelayed 0 0 d (Some k)
  | KImmediate => WImmediate (Some k)
  | KRepeating i imm cap => WRepeating imm 0 0 i (if cap =? 0 then 1 else cap) k
  | KContinuous => WContinuous 0 k
  | KInvoked => WInvoked k
  end.

(** [on_scheduled_hook] of each kind: ticked_work_once_delayed.rs:85-88, ticked_work_repeating.rs:100-103,
    the others do nothing. *)
Definition hook (now : nat) (w : work) : work :=
  match w with
  | WDelayed on cur d k => WDelayed (later on now) (later cur now) d k
  | WRepeating imm consumed cur i cap k =>
      WRepeating imm (later consumed now) (later cur now) i cap k
  | w => w
  end.

(** What code holding a scheduler handle can ask for ([Scheduler],
    scheduler.rs:21-39). Cancellation and invocation ids are arbitrary numbers: the
    generators (scheduler.rs:41-43) only hand out some of them. *)
Inductive req : Type :=
| QSched (cid : nat) (kd : kind) (k : K)
| QCancel (cid : nat)
| QAddInv (iid : nat) (kd : kind) (k : K)
| QInvoke (iid : nat)
| QCancelInv (iid : nat).

(** [ScheduledWorkAction], scheduler.rs:47-68. *)
Inductive action : Type :=
| AActivate (cid : nat) (w : work)
| ACancel (cid : nat)
| AAddInv (iid : nat) (w : work)
| AInvoke (iid : nat)
| ACancelInv (iid : nat).

(** Who ran a closure: a scheduled task or an invoked one. *)
Inductive owner : Type := OWork (wid : nat) | OInv (iid : nat).

(** The log, kept for stating properties: what was asked of the scheduler, ticks
    of the executor, ticks of a task, calls of a closure and the time it was
    given, removals of finished tasks. *)
Inductive ev : Type :=
| ESched (wid cid : nat) (kd : kind)
| ECancel (cid : nat)
| EAddInv (iid : nat) (kd : kind)
| EInvoke (iid : nat)
| ECancelInv (iid : nat)
| ETick (t : nat)
| EWork (wid : nat)
| ERan (o : owner) (t : nat)
| EDone (wid : nat).

(** [TickingScheduler] (ticking_scheduler.rs:17-26), [TickingSchedulerExecutor]
    (ticking_executor.rs:32-53), the world and the log. Hash maps are functions.
    [m_made] counts the calls of [schedule_work]: as actions are drained in
    order, it is the [WorkId] the next scheduled task is going to get (ids do not
    wrap around). *)
Record mach : Type := mkMach {
  m_snow : nat;                     (* scheduler.current_tick *)
  m_queue : list action;            (* scheduler.action_queue *)
  m_made : nat;
  m_now : nat;                      (* executor.current_tick *)
  m_next : nat;                     (* work_id_generator *)
  m_active : list (nat * work);     (* active_work, an IndexMap: in insertion order *)
  m_cmap : nat -> list nat;         (* cancellation_map *)
  m_inv : nat -> option work;       (* invokable_work *)
  m_invoked : list nat;
  m_ticked : list nat;              (* already_ticked *)
  m_depth : nat;                    (* max_single_tick_recursion_depth *)
  m_world : G;
  m_log : list ev
}.

(** ticking_executor.rs:60-72 with :89-97. *)
Definition boot (depth : nat) (g : G) : mach :=
  {| m_snow := 0; m_queue := []; m_made := 0; m_now := 0; m_next := 0; m_active := [];
     m_cmap := fun _ => []; m_inv := fun _ => None; m_invoked := []; m_ticked := [];
     m_depth := depth; m_world := g; m_log := [] |}.

Definition log (m : mach) (e : ev) : mach :=
  {| m_snow := m_snow m; m_queue := m_queue m; m_made := m_made m; m_now := m_now m;
     m_next := m_next m; m_active := m_active m; m_cmap := m_cmap m; m_inv := m_inv m;
     m_invoked := m_invoked m; m_ticked := m_ticked m; m_depth := m_depth m;
     m_world := m_world m; m_log := m_log m ++ [e] |}.
Definition set_world (m : mach) (g : G) : mach :=
  {| m_snow := m_snow m; m_queue := m_queue m; m_made := m_made m; m_now := m_now m;
     m_next := m_next m; m_active := m_active m; m_cmap := m_cmap m; m_inv := m_inv m;
     m_invoked := m_invoked m; m_ticked := m_ticked m; m_depth := m_depth m;
     m_world := g; m_log := m_log m |}.
Definition enqueue (m : mach) (made : nat) (a : action) : mach :=
  {| m_snow := m_snow m; m_queue := m_queue m ++ [a]; m_made := made; m_now := m_now m;
     m_next := m_next m; m_active := m_active m; m_cmap := m_cmap m; m_inv := m_inv m;
     m_invoked := m_invoked m; m_ticked := m_ticked m; m_depth := m_depth m;
     m_world := m_world m; m_log := m_log m |}.
Definition set_active (m : mach) (a : list (nat * work)) : mach :=
  {| m_snow := m_snow m; m_queue := m_queue m; m_made := m_made m; m_now := m_now m;
     m_next := m_next m; m_active := a; m_cmap := m_cmap m; m_inv := m_inv m;
     m_invoked := m_invoked m; m_ticked := m_ticked m; m_depth := m_depth m;
     m_world := m_world m; m_log := m_log m |}.
Definition set_ticked (m : mach) (l : list nat) : mach :=
  {| m_snow := m_snow m; m_queue := m_queue m; m_made := m_made m; m_now := m_now m;
     m_next := m_next m; m_active := m_active m; m_cmap := m_cmap m; m_inv := m_inv m;
     m_invoked := m_invoked m; m_ticked := l; m_depth := m_depth m;
     m_world := m_world m; m_log := m_log m |}.
Definition set_inv (m : mach) (f : nat -> option work) : mach :=
  {| m_snow := m_snow m; m_queue := m_queue m; m_made := m_made m; m_now := m_now m;
     m_next := m_next m; m_active := m_active m; m_cmap := m_cmap m; m_inv := f;
     m_invoked := m_invoked m; m_ticked := m_ticked m; m_depth := m_depth m;
     m_world := m_world m; m_log := m_log m |}.
Definition set_invoked (m : mach) (l : list nat) : mach :=
  {| m_snow := m_snow m; m_queue := m_queue m; m_made := m_made m; m_now := m_now m;
     m_next := m_next m; m_active := m_active m; m_cmap := m_cmap m; m_inv := m_inv m;
     m_invoked := l; m_ticked := m_ticked m; m_depth := m_depth m;
     m_world := m_world m; m_log := m_log m |}.
Definition set_now (m : mach) (t : nat) : mach :=
  {| m_snow := m_snow m; m_queue := m_queue m; m_made := m_made m; m_now := t;
     m_next := m_next m; m_active := m_active m; m_cmap := m_cmap m; m_inv := m_inv m;
     m_invoked := m_invoked m; m_ticked := m_ticked m; m_depth := m_depth m;
     m_world := m_world m; m_log := m_log m |}.
Definition set_sched (m : mach) (t : nat) (q : list action) : mach :=
  {| m_snow := t; m_queue := q; m_made := m_made m; m_now := m_now m;
     m_next := m_next m; m_active := m_active m; m_cmap := m_cmap m; m_inv := m_inv m;
     m_invoked := m_invoked m; m_ticked := m_ticked m; m_depth := m_depth m;
     m_world := m_world m; m_log := m_log m |}.

(** ticking_scheduler.rs:58-97. *)
Definition perform (m : mach) (r : req) : mach :=
  match r with
  | QSched cid kd k =>
      log (enqueue m (S (m_made m)) (AActivate cid (hook (m_snow m) (new_work kd k))))
          (ESched (m_made m) cid kd)
  | QCancel cid => log (enqueue m (m_made m) (ACancel cid)) (ECancel cid)
  | QAddInv iid kd k =>
      log (enqueue m (m_made m) (AAddInv iid (hook (m_snow m) (new_work kd k))))
          (EAddInv iid kd)
  | QInvoke iid => log (enqueue m (m_made m) (AInvoke iid)) (EInvoke iid)
  | QCancelInv iid => log (enqueue m (m_made m) (ACancelInv iid)) (ECancelInv iid)
  end.

Definition performs (m : mach) (rs : list req) : mach := fold_left perform rs m.

(** What a closure does when it is given the time: it changes (itself and) the world,
    makes requests to the scheduler, and says whether it is done (ignored for
    [FnOnce]). The scheduler is not locked while it runs, and nothing it asks for
    happens before it returned. Simplified: closures return, and do not panic. *)
Variable run : K -> nat -> G -> K * bool * G * list req.

Definition call (o : owner) (k : K) (t : nat) (m : mach) : mach * K * bool :=
  let '(k', done, g', rs) := run k t (m_world m) in
  (performs (set_world (log m (ERan o t)) g') rs, k', done).

(** The loop of ticked_work_repeating.rs:81-96; [None] when the fuel did not suffice.
    [res || r] is the [AddAssign] of scheduled_work.rs:25-39. *)
Fixpoint repeating (fuel : nat) (o : owner) (t i cap : nat)
    (imm : bool) (consumed cur : nat) (k : K) (res : bool) (execs : nat) (m : mach)
  : option (mach * work * bool) :=
  if ((consumed + i <=? cur) && negb res) || imm then
    match fuel with
    | 0 => None
    | S f =>
        let '(m', k', res') :=
          if execs <? cap then
            let '(m1, k1, r) := call o k t m in (m1, k1, res || r)
          else (m, k, res) in
        if imm then repeating f o t i cap false consumed cur k' res' (S execs) m'
        else repeating f o t i cap false (consumed + i) cur k' res' (S execs) m'
    end
  else Some (m, WRepeating imm consumed cur i cap k, res).

(** [ScheduledWork::tick] of each kind; [None]: it did not return within the fuel. *)
Definition work_tick (fuel : nat) (o : owner) (w : work) (t : nat) (m : mach)
  : option (mach * work * bool) :=
  match w with
  | WDelayed on cur d ko =>                               (* ticked_work_once_delayed.rs:73-83 *)
      let cur' := later cur t in
      if on + d <=? cur' then
        match ko with
        | Some k => let '(m', _, _) := call o k t m in Some (m', WDelayed on cur' d None, true)
        | None => Some (m, WDelayed on cur' d None, true)
        end
      else Some (m, WDelayed on cur' d ko, false)
  | WImmediate ko =>                                      (* ticked_work_once_immediate.rs:58-63 *)
      match ko with
      | Some k => let '(m', _, _) := call o k t m in Some (m', WImmediate None, true)
      | None => Some (m, WImmediate None, true)
      end
  | WRepeating imm consumed cur i cap k =>                (* ticked_work_repeating.rs:75-98 *)
      repeating fuel o t i cap imm consumed (later cur t) k false 0 m
  | WContinuous last k =>                                 (* ticked_work_continuous.rs:60-63 *)
      let '(m', k', r) := call o k t m in Some (m', WContinuous (later last t) k', r)
  | WInvoked k =>                                         (* ticked_work_invoked.rs:59-61 *)
      let '(m', k', r) := call o k t m in Some (m', WInvoked k', r)
  end.

Definition find_work (id : nat) (l : list (nat * work)) : option work :=
  option_map snd (find (fun x => fst x =? id) l).
Definition put_work (id : nat) (w : work) (l : list (nat * work)) : list (nat * work) :=
  map (fun x => if fst x =? id then (id, w) else x) l.
Definition remove_works (ids : list nat) (l : list (nat * work)) : list (nat * work) :=
  filter (fun x => negb (mem (fst x) ids)) l.

(** One action of the loop in [drain_scheduler_queue], ticking_executor.rs:158-185.
    [:176] keeps the invocations of the cancelled id and drops the others. Dropping a
    task has no effect in the model (in the code it happens while the scheduler is
    locked). *)
Definition drain_one (m : mach) (a : action) : mach :=
  match a with
  | AActivate cid w =>
      {| m_snow := m_snow m; m_queue := m_queue m; m_made := m_made m; m_now := m_now m;
         m_next := S (m_next m); m_active := m_active m ++ [(m_next m, w)];
         m_cmap := set (m_cmap m) cid (m_cmap m cid ++ [m_next m]); m_inv := m_inv m;
         m_invoked := m_invoked m; m_ticked := m_ticked m; m_depth := m_depth m;
         m_world := m_world m; m_log := m_log m |}
  | AAddInv iid w => set_inv m (set (m_inv m) iid (Some w))
  | AInvoke iid => set_invoked m (m_invoked m ++ [iid])
  | ACancelInv iid =>
      set_invoked (set_inv m (set (m_inv m) iid None))
        (filter (fun j => j =? iid) (m_invoked m))
  | ACancel cid =>
      {| m_snow := m_snow m; m_queue := m_queue m; m_made := m_made m; m_now := m_now m;
         m_next := m_next m; m_active := remove_works (m_cmap m cid) (m_active m);
         m_cmap := set (m_cmap m) cid []; m_inv := m_inv m;
         m_invoked := m_invoked m; m_ticked := m_ticked m; m_depth := m_depth m;
         m_world := m_world m; m_log := m_log m |}
  end.

(** ticking_executor.rs:152-189 [drain_scheduler_queue]; the flag is [had_actions]. *)
Definition drain (t : nat) (m : mach) : mach * bool :=
  (fold_left drain_one (m_queue m) (set_sched m (later (m_snow m) t) []),
   match m_queue m with [] => false | _ => true end).

(** The loop of [tick_scheduled], ticking_executor.rs:198-210, over the ids not ticked
    yet; the second result is [work_finished_this_tick]. Tasks only change the
    scheduler's queue, so the tasks present do not change while it runs. *)
Fixpoint tick_ids (fuel t : nat) (ids fin : list nat) (m : mach) : option (mach * list nat) :=
  match ids with
  | [] => Some (m, fin)
  | id :: ids' =>
      match find_work id (m_active m) with
      | None => tick_ids fuel t ids' fin m
      | Some w =>
          match work_tick fuel (OWork id) w t (log m (EWork id)) with
          | None => None
          | Some (m', w', r) =>
              tick_ids fuel t ids' (if r then fin ++ [id] else fin)
                (set_active m' (put_work id w' (m_active m')))
          end
      end
  end.

Definition due (m : mach) : list nat :=
  filter (fun id => negb (mem id (m_ticked m))) (map fst (m_active m)).

(** ticking_executor.rs:191-223 [tick_scheduled]; the flag is [no_work_ticked]. *)
Definition tick_scheduled (fuel t : nat) (m : mach) : option (mach * bool) :=
  match tick_ids fuel t (due m) [] m with
  | None => None
  | Some (m', fin) =>
      let m1 := set_ticked m' (m_ticked m' ++ due m) in
      let m2 := set_active m1 (remove_works fin (m_active m1)) in
      Some (fold_left (fun m id => log m (EDone id)) fin m2,
            match due m with [] => true | _ => false end)
  end.

(** ticking_executor.rs:141-150 [execute_invoked]. *)
Fixpoint run_invoked (fuel t : nat) (ids : list nat) (m : mach) : option mach :=
  match ids with
  | [] => Some m
  | iid :: ids' =>
      match m_inv m iid with
      | None => run_invoked fuel t ids' m
      | Some w =>
          match work_tick fuel (OInv iid) w t m with
          | None => None
          | Some (m', w', r) =>
              run_invoked fuel t ids'
                (set_inv m' (set (m_inv m') iid (if r then None else Some w')))
          end
      end
  end.

Definition execute_invoked (fuel t : nat) (m : mach) : option mach :=
  run_invoked fuel t (m_invoked m) (set_invoked m []).

(** How a call of the executor ends: normally, with the panic of ticking_executor.rs:131,
    or not within the fuel. *)
Inductive outcome : Type :=
| Fine (m : mach)
| Panic (m : mach)
| Hang.

(** The loop of [tick_to], ticking_executor.rs:119-133, with [n] more rounds allowed
    after this one. *)
Fixpoint rounds (n fuel t : nat) (m : mach) : outcome :=
  let '(m1, had) := drain t m in
  match tick_scheduled fuel t m1 with
  | None => Hang
  | Some (m2, none_ticked) =>
      match execute_invoked fuel t m2 with
      | None => Hang
      | Some m3 =>
          if none_ticked && negb had then Fine m3
          else match n with
               | 0 => Panic m3
               | S n' => rounds n' fuel t m3
               end
      end
  end.

(** ticking_executor.rs:113-134 [tick_to]. *)
Definition tick_to (fuel t : nat) (m : mach) : outcome :=
  rounds (m_depth m) fuel t
    (log (set_ticked (set_now m (later (m_now m) t)) []) (ETick t)).

(** ticking_executor.rs:136-139 [tick]. *)
Definition tick (fuel delta : nat) (m : mach) : outcome := tick_to fuel (m_now m + delta) m.

(** What can happen from outside: the world changes and other code makes requests to the
    scheduler, or the executor is ticked. *)
Inductive act : Type :=
| HDo (g : G) (rs : list req)
| HTick (delta : nat)
| HTickTo (t : nat).

Definition step (fuel : nat) (m : mach) (a : act) : outcome :=
  match a with
  | HDo g rs => Fine (performs (set_world m g) rs)
  | HTick d => tick fuel d m
  | HTickTo t => tick_to fuel t m
  end.

Fixpoint steps (fuel : nat) (m : mach) (h : list act) : outcome :=
  match h with
  | [] => Fine m
  | a :: h' =>
      match step fuel m a with
      | Fine m' => steps fuel m' h'
      | o => o
      end
  end.

End Sched.
Arguments work : clear implicits.
Arguments req : clear implicits.
Arguments action : clear implicits.
Arguments mach : clear implicits.
Arguments outcome : clear implicits.
Arguments act : clear implicits.
