(** Property C75: the observers that come with the library. [head p] is a pipeline that ends in an
    observer that records what it is told (C01 to C12); the statements compare with it, for every pipeline
    and every history of calls. [rewritten tr q w] is [w] with what the observer did rewritten by [tr];
    teardowns and other callbacks stay where they are. *)
From Verif Require Import Base SubscrModel OpsModel OpsQuiet ObsModel ObsSim ObsPrint.
Set Implicit Arguments.

(** FnObserver: each notification is one call of its callback; although those for the error and the
    completion can be called only once, they are there when they are needed. *)
Theorem C75_fn : forall I F O G (p : pipe I F O G) cs,
  let S := pipe_sub p (upgraded (fn_observer O G)) in
  run S cs = run (head p) cs /\ closed S (final S cs) = closed (head p) (final (head p) cs).
Proof.
  exact (fun I F O G p cs => match pipe_rewritten p cs (sim_fn O G) with
                             | conj a b => conj (eq_trans a (f_equal snd (rewritten_same _ tt))) b
                             end).
Qed.
Print Assumptions C75_fn.

(** DynFnObserver: the callbacks that were given are called, what has none is ignored, except that it
    panics at the error. *)
Theorem C75_dyn : forall I F O G d (p : pipe I F O G) cs,
  let S := pipe_sub p (upgraded (dyn_observer O G d)) in
  run S cs = snd (rewritten (fun _ n =>
    (tt, match n with
         | NNext o => match on_n d with Some k => [DNext k o] | None => [] end
         | NError e => match on_e d with Some k => [DError k e] | None => [DPanic] end
         | NComplete => match on_c d with Some k => [DComplete k] | None => [] end
         end)) tt (run (head p) cs)) /\
  closed S (final S cs) = closed (head p) (final (head p) cs).
Proof. exact (fun I F O G d p cs => pipe_rewritten p cs (sim_dyn O G d)). Qed.
Print Assumptions C75_dyn.

Theorem C75_noop : forall I F O G (p : pipe I F O G) cs,
  let S := pipe_sub p (upgraded (noop_observer O G)) in
  run S cs = snd (rewritten (fun _ n => (tt, match n with NError _ => [DPanic] | _ => [] end)) tt (run (head p) cs)) /\
  closed S (final S cs) = closed (head p) (final (head p) cs).
Proof. exact (fun I F O G p cs => pipe_rewritten p cs (sim_noop O G)). Qed.
Print Assumptions C75_noop.

Example C75_example :
  let p := PCons (@OTake nat nat 2) (PCons (OTap (fun a => a) (fun e => e) 9) PNil) in
  let cs := [CAdd [7]; CN (Nxt 1); CN (Nxt 2); CN (Nxt 3); CN (Err 4)] in
  run (pipe_sub p (upgraded (fn_observer nat nat))) cs = [EEff 1; EObs (NNext 1); EEff 2; EObs (NNext 2); EEff 9; EObs NComplete; ETd 7] /\
  run (pipe_sub p (upgraded (dyn_observer nat nat (with_complete 20 (with_next 11 (with_next 10 dyn_default)))))) cs =
    [EEff 1; EObs (DNext 11 1); EEff 2; EObs (DNext 11 2); EEff 9; EObs (DComplete 20); ETd 7] /\
  run (upgraded (dyn_observer nat nat (with_next 10 dyn_default))) [CN (Nxt 1); CN (Err 4)] = [EObs (DNext 10 1); EObs DPanic] /\
  run (upgraded (noop_observer nat nat)) [CN (Nxt 1); CN Cmp; CN (Err 4)] = [].
Proof. vm_compute. auto. Qed.

(** Used directly, with no subscriber in front: a FnObserver calls its callback for each value, for the
    first error and for the first completion, also for both. A DynFnObserver panics at a second error even
    if it has a callback for errors. *)
Theorem C75_fn_direct : forall O F ns n, let B := fn_observer O F in
  snd (used B (ob0 B) (ns ++ [n])) = snd (used B (ob0 B) ns) ++
    (if is_err n && existsb is_err ns || is_cmp n && existsb is_cmp ns then [] else [EObs n]).
Proof. exact fn_direct. Qed.
Theorem C75_dyn_direct : forall O F d ns n, let B := dyn_observer O F d in
  snd (used B d (ns ++ [n])) = snd (used B d ns) ++
    match n with
    | NNext o => match on_n d with Some k => [EObs (DNext k o)] | None => [] end
    | NError e => match on_e d with Some k => if existsb is_err ns then [EObs DPanic] else [EObs (DError k e)] | None => [EObs DPanic] end
    | NComplete => match on_c d with Some k => if existsb is_cmp ns then [] else [EObs (DComplete k)] | None => [] end
    end.
Proof. exact dyn_direct. Qed.
Print Assumptions C75_fn_direct.
Print Assumptions C75_dyn_direct.
Example C75_direct_example :
  snd (used (fn_observer nat nat) (true, true) [NNext 1; NError 2; NError 3; NNext 4; NComplete; NComplete]) =
    [EObs (NNext 1); EObs (NError 2); EObs (NNext 4); EObs NComplete] /\
  (let d := with_error 6 (with_next 7 (with_next 8 dyn_default)) in
   snd (used (dyn_observer nat nat d) d [NComplete; NNext 1; NError 2; NError 3]) = [EObs (DNext 7 1); EObs (DError 6 2); EObs DPanic]).
Proof. vm_compute. auto. Qed.

(** A callback given later replaces the one given before and leaves the others alone. *)
Theorem C75_with : forall d j k,
  with_next k (with_next j d) = with_next k d /\ with_error k (with_error j d) = with_error k d /\ with_complete k (with_complete j d) = with_complete k d /\
  (on_n (with_next k d), on_e (with_next k d), on_c (with_next k d)) = (Some k, on_e d, on_c d) /\
  (on_n (with_error k d), on_e (with_error k d), on_c (with_error k d)) = (on_n d, Some k, on_c d) /\
  (on_n (with_complete k d), on_e (with_complete k d), on_c (with_complete k d)) = (on_n d, on_e d, Some k).
Proof. exact (fun d j k => conj eq_refl (conj eq_refl (conj eq_refl (conj eq_refl (conj eq_refl eq_refl))))). Qed.
Print Assumptions C75_with.

(** PrintObserver: what it prints up to the first error, completion, unsubscription or drop is what another
    observer would have been told, with the teardowns at the same places; [is_closed] is the same. *)
Theorem C75_print_partial : forall I F O G (p : pipe I F O G) cs,
  let S := pipe_sub p (print_observer O G) in
  run (head p) cs = snd (rewritten (fun (over : bool) l =>
    match l with
    | LNext o => (over, if over then [] else [NNext o])
    | LError e => (true, if over then [] else [NError e])
    | LCompleted => (true, if over then [] else [NComplete])
    | LUnsubscribed | LDropped => (true, [])
    end) false (run S cs)) /\
  closed (head p) (final (head p) cs) = closed S (final S cs).
Proof. exact (fun I F O G p cs => pipe_rewritten p cs (sim_print O G)). Qed.
Print Assumptions C75_print_partial.

(** It prints at most once that it is unsubscribed. *)
Theorem C75_print_once : forall I F O G (p : pipe I F O G) cs,
  total (fun l => match l with LUnsubscribed => 1 | _ => 0 end) (run (pipe_sub p (print_observer O G)) cs) <= 1.
Proof. exact print_unsubscribed_once. Qed.
Print Assumptions C75_print_once.
Example C75_print_example :
  run (pipe_sub (PCons (@OMap nat nat nat S) PNil) (print_observer nat nat)) [CAdd [7]; CN (Nxt 1); CN Cmp; CDrop] =
  [EObs (LNext 2); EObs LCompleted; ETd 7; EObs LUnsubscribed; EObs LDropped].
Proof. vm_compute. reflexivity. Qed.

(** Its drop prints nothing, also if it was not unsubscribed; the teardowns run. *)
Theorem C75_print_drop : forall O F d, lines (snd (step (print_observer O F) d CDrop)) = [].
Proof. exact print_drop_silent. Qed.
Print Assumptions C75_print_drop.
Example C75_print_drop_ex :
  run (print_observer nat nat) [CAdd [7]; CN (Nxt 1); CDrop] = [EObs (LNext 1); ETd 7; EObs LDropped].
Proof. vm_compute. reflexivity. Qed.

(** Behind one operator that is not composed of others, and whose source looks at [is_closed] ([heeds]):
    values, then at most one end, then that it is unsubscribed, then nothing. *)
Theorem C75_print_neat_partial : forall I E O F (o : oper I E O F) cs, plain o = true ->
  let S := op_sub o (print_observer O F) in heeds S (s0 S) cs -> exists vs t,
  lines (run S cs) = map LNext vs ++ t /\
  (t = [] \/ t = [LUnsubscribed] \/ t = [LCompleted; LUnsubscribed] \/ exists e, t = [LError e; LUnsubscribed]).
Proof. exact plain_neat. Qed.
Print Assumptions C75_print_neat_partial.
Example C75_print_neat_example :
  let S := op_sub (@OTake nat nat 2) (print_observer nat nat) in
  let cs := [CAdd [7]; CN (Nxt 1); CN (Nxt 2); CN Uns; CDrop] in
  heeds S (s0 S) cs /\ lines (run S cs) = [LNext 1; LNext 2; LCompleted; LUnsubscribed].
Proof. vm_compute. intuition. Qed.

(** In a pipeline it goes on printing after that, also in one whose source did nothing wrong ([heeds], C74):
    a count followed by is_empty prints that the count was not empty, that it completed, that it is
    unsubscribed, and then that the count was empty. *)
Theorem C75_print_after_end_refuted : exists cs : list (call nat nat),
  let S := pipe_sub (PCons (@OCount nat nat) (PCons (@OIsEmpty nat nat) PNil)) (print_observer bool nat) in
  heeds S (s0 S) cs /\
  run S cs = [EObs (LNext false); EObs LCompleted; EObs LUnsubscribed; EObs (LNext true)].
Proof. exists [CN (Nxt 5); CN Cmp]. vm_compute. intuition. Qed.
Print Assumptions C75_print_after_end_refuted.
