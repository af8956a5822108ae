(** Property C54: the source observables just, iter, empty, throw, closed, never, create
    and deferred, in front of any pipeline of operators.

    [session (head p) fuel src n cs]: the n-th subscription to [src] with pipeline [p],
    followed by the calls [cs] on the subscription it returns; the number of items taken
    from an iterator, whether the subscription is closed at the end and what became
    visible ([obs]: what the observer was told, [tds]: the teardowns that ran). None: the
    iterator did not end within [fuel] rounds. [notifs_of (spec_pipe p t)] is what the
    observer is told when [p] is given the values and the ending [t] (C06-C12). *)
From Verif Require Import Base SubscrModel SubscrProofs OpsModel OpsSpec OpsProofs OpsSem OpsMean OpsPipe PropPipelines SourceModel SourceProofs.
Set Implicit Arguments.

Definition tail_pipe : pipe nat bool nat bool :=
  PCons (OFinalize nat bool 7) (PCons (OMap bool S) (PCons (OTake nat bool 2) PNil)).
Definition open_pipe : pipe nat bool nat bool :=
  PCons (OFinalize nat bool 7) (PCons (OMap bool S) PNil).
Example pipes_ok : ok tail_pipe /\ ok open_pipe. Proof. split; reflexivity. Qed.

(** *** C54 just, empty, throw and closed: the observer is told what the source stands
    for, everything is released before subscribe() returns *)
Theorem C54_just : forall I E O F (p : pipe I E O F) fuel v n, ok p -> exists w,
  subscribe (head p) fuel (SJust v) n = Some (0, HInert _, w) /\
  obs w = notifs_of (spec_pipe p ([v], FDone)) /\ tds w = pipe_adds p /\ ordered w.
Proof. exact (fun I E O F p fuel v n H => just_ok H fuel v n). Qed.
Print Assumptions C54_just.
Theorem C54_empty : forall I E O F (p : pipe I E O F) fuel n, ok p -> exists w,
  subscribe (head p) fuel SEmpty n = Some (0, HInert _, w) /\
  obs w = notifs_of (spec_pipe p ([], FDone)) /\ tds w = pipe_adds p /\ ordered w.
Proof. exact (fun I E O F p fuel n H => empty_ok H fuel n). Qed.
Print Assumptions C54_empty.
Theorem C54_throw : forall I E O F (p : pipe I E O F) fuel e n, ok p -> exists w,
  subscribe (head p) fuel (SThrow e) n = Some (0, HInert _, w) /\
  obs w = notifs_of (spec_pipe p ([], FErr e)) /\ tds w = pipe_adds p /\ ordered w.
Proof. exact (fun I E O F p fuel e n H => throw_ok H fuel e n). Qed.
Print Assumptions C54_throw.
Theorem C54_closed : forall I E O F (p : pipe I E O F) fuel n, ok p -> exists w,
  subscribe (head p) fuel SClosed n = Some (0, HInert _, w) /\
  obs w = seen p [] /\ tds w = pipe_adds p /\ ordered w.
Proof. exact (fun I E O F p fuel n H => closed_ok H fuel n). Qed.
Print Assumptions C54_closed.
Example C54_just_ex :
  session (head open_pipe) 0 (SJust 4) 0 [HAdd [5]; HUnsub; HDrop] =
    Some (0, true, [EObs (NNext 5); EObs NComplete; ETd 7; ETd 5]) /\
  session (head open_pipe) 0 (SThrow true) 0 [] = Some (0, true, [EObs (NError true); ETd 7]) /\
  session (head open_pipe) 0 SClosed 0 [] = Some (0, true, [ETd 7]).
Proof. vm_compute; auto. Qed.

(** *** C54 iter: a finite iterator is emitted and completes, as far as the pipeline
    wants it *)
Theorem C54_iter : forall I E O F (p : pipe I E O F) l fuel n, ok p -> length l < fuel -> exists k w,
  subscribe (head p) fuel (SIter (nth_error l)) n = Some (k, HInert _, w) /\
  obs w = notifs_of (spec_pipe p (l, FDone)) /\ tds w = pipe_adds p /\ ordered w /\ k <= length l.
Proof. exact (fun I E O F p l fuel n H => iter_list H l n). Qed.
Print Assumptions C54_iter.
(** whatever the iterator: the values told to the pipeline are the first items; the loop
    goes on exactly as long as there are items and the pipeline is not closed; when it is
    stopped by the pipeline, one more item has been taken from the iterator *)
Theorem C54_iter_any : forall I E O F (p : pipe I E O F) fuel f n k h w, ok p ->
  subscribe (head p) fuel (SIter f) n = Some (k, h, w) ->
  exists vs,
    (forall j, j < length vs -> f j = nth_error vs j) /\
    (forall j, j < length vs -> is_closed p (nexts (firstn j vs)) = false) /\
    h = HInert _ /\ tds w = pipe_adds p /\ ordered w /\
    ((f (length vs) = None /\ k = length vs /\ obs w = notifs_of (spec_pipe p (vs, FDone))) \/
     (f (length vs) <> None /\ is_closed p (nexts vs) = true /\ k = S (length vs) /\
      obs w = notifs_of (spec_pipe p (vs, FOpen)))).
Proof. exact (fun I E O F p fuel f n k h w H => @iter_ok I E O F p H fuel f n k h w). Qed.
Print Assumptions C54_iter_any.
(** an endless iterator is left as soon as the pipeline has had enough of it, having
    taken one item too many, and never if the pipeline never closes *)
Theorem C54_iter_endless : forall I E O F (p : pipe I E O F) (g : nat -> I) fuel n m, ok p ->
  m < fuel -> is_closed p (nexts (map g (seq 0 m))) = true ->
  (forall j, j < m -> is_closed p (nexts (map g (seq 0 j))) = false) ->
  exists w, subscribe (head p) fuel (SIter (fun k => Some (g k))) n = Some (S m, HInert _, w) /\
    obs w = notifs_of (spec_pipe p (map g (seq 0 m), FOpen)) /\ tds w = pipe_adds p /\ ordered w.
Proof. exact (fun I E O F p g fuel n m H => @iter_endless I E O F p H g fuel n m). Qed.
Print Assumptions C54_iter_endless.
Theorem C54_iter_forever : forall I E O F (p : pipe I E O F) (g : nat -> I) n, ok p ->
  (forall j, is_closed p (nexts (map g (seq 0 j))) = false) ->
  forall fuel, subscribe (head p) fuel (SIter (fun k => Some (g k))) n = None.
Proof. exact (fun I E O F p g n H => iter_forever H g n). Qed.
Print Assumptions C54_iter_forever.
Example C54_iter_ex :
  session (head open_pipe) 9 (SIter (nth_error [4; 5; 6])) 0 [] =
    Some (3, true, [EObs (NNext 5); EObs (NNext 6); EObs (NNext 7); EObs NComplete; ETd 7]) /\
  session (head tail_pipe) 9 (SIter (fun k => Some (k * 10))) 0 [HAdd [1]] =
    Some (3, true, [EObs (NNext 1); EObs (NNext 11); EObs NComplete; ETd 7; ETd 1]) /\
  is_closed tail_pipe (nexts [0; 10]) = true /\ is_closed tail_pipe (nexts [0]) = false /\
  session (head open_pipe) 9 (SIter (fun k => Some k)) 0 [] = None.
Proof. vm_compute; auto. Qed.

(** *** C54 the subscription these return is closed, runs what is added to it at once
    and does nothing else *)
Theorem C54_inert : forall I E O F (p : pipe I E O F) fuel src n cs k c w, ok p -> inert_source src = true ->
  session (head p) fuel src n cs = Some (k, c, w) ->
  c = true /\ tds w = pipe_adds p ++ hadds cs /\ ordered w /\
  forall k' c' w', session (head p) fuel src n [] = Some (k', c', w') -> obs w = obs w'.
Proof. exact (fun I E O F p fuel src n cs k c w H => @inert_session I E O F p H fuel src n cs k c w). Qed.
Print Assumptions C54_inert.

(** *** C54 never: tells the observer nothing of its own and stays open until it is
    unsubscribed or dropped, when all teardowns run once: first those given to the
    subscription, then those of the pipeline; later ones run at once *)
Theorem C54_never_open : forall I E O F (p : pipe I E O F) fuel n cs, ok p ->
  is_closed p [] = false -> Forall adding cs ->
  exists w, session (head p) fuel SNever n cs = Some (0, false, w) /\ obs w = seen p [] /\ tds w = [].
Proof. exact (fun I E O F p fuel n cs H => @never_open I E O F p H fuel n cs). Qed.
Print Assumptions C54_never_open.
Theorem C54_never_released : forall I E O F (p : pipe I E O F) fuel n cs c ds, ok p ->
  is_closed p [] = false -> Forall adding cs -> closer c = true ->
  exists w, session (head p) fuel SNever n (cs ++ c :: ds) = Some (0, true, w) /\ obs w = seen p [] /\
    tds w = hadds cs ++ pipe_adds p ++ hadds ds /\ ordered w.
Proof. exact (fun I E O F p fuel n cs c ds H => @never_close I E O F p H fuel n cs c ds). Qed.
Print Assumptions C54_never_released.
Example C54_never_ex :
  session (head open_pipe) 0 SNever 0 [HAdd [1]; HAdd [2]] = Some (0, false, []) /\
  session (head open_pipe) 0 SNever 0 [HAdd [1]; HAdd [2]; HUnsub; HAdd [3]; HDrop] = Some (0, true, [ETd 1; ETd 2; ETd 7; ETd 3]) /\
  is_closed open_pipe [] = false.
Proof. vm_compute; auto. Qed.
(** A subscription that says it is closed runs an added teardown at once: false for
    never, if the pipeline closes by itself when it is subscribed. *)
Theorem C54_closed_runs_at_once_refuted : exists (p : pipe nat bool nat bool) t w w',
  ok p /\
  session (head p) 0 SNever 0 [] = Some (0, true, w) /\
  session (head p) 0 SNever 0 [HAdd t] = Some (0, true, w') /\
  t <> [] /\ w' = w.
Proof.
  exists (PCons (OTake nat bool 0) PNil), [1], [EObs NComplete], [EObs NComplete].
  repeat split; discriminate.
Qed.
Print Assumptions C54_closed_runs_at_once_refuted.

(** *** C54 create: the producer runs once and is told the truth about is_closed(); its
    calls have the effect of these calls on the pipeline ([made p q] are the calls it
    makes), so the observer is told a well formed sequence whatever it does. If it has
    closed the pipeline, the subscription is closed. *)
Theorem C54_create_closed : forall I E O F (p : pipe I E O F) fuel n q cs, ok p -> is_closed p (made p q) = true ->
  exists w, session (head p) fuel (SCreate q) n cs = Some (0, true, w) /\
    obs w = seen p (made p q) /\ tds w = pipe_adds p ++ added (made p q) ++ hadds cs /\ ordered w.
Proof. exact (fun I E O F p fuel n q cs H => @create_closed I E O F p H fuel n q cs). Qed.
Print Assumptions C54_create_closed.
Theorem C54_create_open : forall I E O F (p : pipe I E O F) fuel n q cs, ok p ->
  is_closed p (made p q) = false -> Forall not_unsub cs ->
  exists w, session (head p) fuel (SCreate q) n cs = Some (0, false, w) /\
    obs w = seen p (made p q) /\ tds w = [].
Proof. exact (fun I E O F p fuel n q cs H => @create_open I E O F p H fuel n q cs). Qed.
Print Assumptions C54_create_open.
Theorem C54_create_unsubscribed : forall I E O F (p : pipe I E O F) fuel n q cs ds, ok p ->
  is_closed p (made p q) = false -> Forall not_unsub cs ->
  exists w, session (head p) fuel (SCreate q) n (cs ++ HUnsub :: ds) = Some (0, true, w) /\
    obs w = seen p (made p q) /\ tds w = pipe_adds p ++ added (made p q) ++ hadds cs ++ hadds ds /\ ordered w.
Proof. exact (fun I E O F p fuel n q cs ds H => @create_unsub I E O F p H fuel n q cs ds). Qed.
Print Assumptions C54_create_unsubscribed.
(** an impolite producer *)
Definition rude : prog nat bool :=
  PAdd [1] (PNotify (Nxt 3) (PAsk (fun c => if c then PStop else PNotify (Nxt 4) (PAsk (fun c => PNotify (if c then Nxt 9 else Nxt 5) (PNotify Cmp PStop)))))).
Definition polite : prog nat bool := PAdd [1] (PNotify (Nxt 3) PStop).
Example C54_create_ex :
  made tail_pipe rude = [CAdd [1]; CN (Nxt 3); CN (Nxt 4); CN (Nxt 9); CN Cmp] /\
  session (head tail_pipe) 0 (SCreate rude) 0 [HAdd [2]] =
    Some (0, true, [EObs (NNext 4); EObs (NNext 5); EObs NComplete; ETd 7; ETd 1; ETd 2]) /\
  is_closed tail_pipe (made tail_pipe polite) = false /\
  session (head tail_pipe) 0 (SCreate polite) 0 [HAdd [2]; HDrop; HAdd [3]; HUnsub; HAdd [4]; HUnsub] =
    Some (0, true, [EObs (NNext 4); ETd 7; ETd 1; ETd 2; ETd 3; ETd 4]).
Proof. vm_compute; auto. Qed.
(** Dropping the subscription releases what it holds: false for create(). The returned
    subscription and the destination own each other, so that dropping the last handle
    runs nothing, ever. *)
Theorem C54_create_drop_releases_refuted : exists (p : pipe nat bool nat bool) (q : prog nat bool) w,
  ok p /\ session (head p) 0 (SCreate q) 0 [HDrop] = Some (0, false, w) /\
  tds w = [] /\ pipe_adds p ++ added (made p q) <> [].
Proof.
  exists tail_pipe, polite, [EObs (NNext 4)]. repeat split; vm_compute; discriminate.
Qed.
Print Assumptions C54_create_drop_releases_refuted.

(** *** C54 deferred: the creator is called once for each subscription, which then
    behaves like a first subscription to what it returned *)
Theorem C54_deferred : forall I E O F (p : pipe I E O F) fuel mk n cs,
  session (head p) fuel (SDefer mk) n cs = session (head p) fuel (mk n) 0 cs.
Proof. exact (fun I E O F p fuel mk n cs => eq_refl). Qed.
Print Assumptions C54_deferred.
Example C54_deferred_ex :
  session (head open_pipe) 9 (SDefer (fun k => SDefer (fun j => SJust (k * 10 + j)))) 3 [] =
    Some (0, true, [EObs (NNext 31); EObs NComplete; ETd 7]).
Proof. vm_compute; auto. Qed.
