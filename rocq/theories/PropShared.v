(** Properties C14 and C15: the shared subscriber.

    [D] is any destination, that is any state machine that reacts to each call it
    receives with calls on (a clone of) the shared subscriber. [top_calls (sh_new D
    d0) ns] is the outcome of the calls [ns] made from outside; [sh_log] is
    what the destination received. *)
From Verif Require Import Base SubscrModel SharedModel SharedSpec SharedProofs.
Set Implicit Arguments.

(** A destination used in the examples: it pushes [k - 1] twice when it gets [k > 0],
    completes on 0 after which it pushes 7 and unsubscribes; its state is what it saw. *)
Definition echo : dest nat bool :=
  {| dst := bool;
     react := fun c n =>
       match n with
       | Nxt (S k) => (c, [Nxt k; Nxt k])
       | Nxt 0 => (c, [Cmp; Nxt 7; Uns])
       | _ => (true, [Nxt 8])
       end;
     dclosed := fun c => c |}.
(** One push per value, no end: a chain of [k] generations. *)
Definition chain : dest nat bool :=
  {| dst := bool;
     react := fun c n =>
       match n with
       | Nxt (S k) => (c, [Nxt k])
       | Nxt 0 => (c, [])
       | _ => (true, [])
       end;
     dclosed := fun c => c |}.

(** *** C14: a value pushed from outside into an open shared subscriber sets off
    the first-in first-out cascade of everything pushed from inside: all of it
    is delivered, nothing else, in that order, up to the first closing call, as long
    as no call has a generation above 9. *)
Theorem C14_cascade_delivered : forall A E (D : dest A E) d0 ns s a d' l,
  top_calls (sh_new D d0) ns = Fine s -> sh_closed s = false ->
  cascade D 9 (sh_dst s) [(0, Nxt a)] d' l ->
  exists s', top_calls (sh_new D d0) (ns ++ [Nxt a]) = Fine s' /\
    sh_log s' = sh_log s ++ l /\ sh_dst s' = d' /\
    sh_closed s' = existsb closing l || dclosed D d'.
Proof. exact @reach_next. Qed.
Print Assumptions C14_cascade_delivered.

(** And whenever the call returns, what was delivered is such a cascade. *)
Theorem C14_only_cascades : forall A E (D : dest A E) d0 ns s a s',
  top_calls (sh_new D d0) ns = Fine s -> sh_closed s = false ->
  top_call s (Nxt a) = Fine s' ->
  exists l, cascade D 10 (sh_dst s) [(0, Nxt a)] (sh_dst s') l /\ sh_log s' = sh_log s ++ l.
Proof. exact @reach_next_conv. Qed.
Print Assumptions C14_only_cascades.

(** Whatever happens, even in a history that ends in the depth panic: at most one
    closing call is delivered and nothing after it, except an unsubscribe after an
    error/complete. *)
Theorem C14_closes_once : forall A E (D : dest A E) d0 ns,
  closes_once (sh_log (state_of (top_calls (sh_new D d0) ns))).
Proof. exact @reach_closes_once. Qed.
Print Assumptions C14_closes_once.

Theorem C14_silent_when_closed : forall A E (D : dest A E) d0 ns s n,
  top_calls (sh_new D d0) ns = Fine s -> sh_closed s = true -> n <> Uns ->
  top_call s n = Fine s.
Proof. exact @reach_closed_silent. Qed.
Print Assumptions C14_silent_when_closed.

Theorem C14_terminal : forall A E (D : dest A E) d0 ns s n,
  top_calls (sh_new D d0) ns = Fine s -> sh_closed s = false -> terminal n = true ->
  exists s', top_call s n = Fine s' /\
    ((sh_log s' = sh_log s ++ [n] /\ sh_dst s' = fst (react D (sh_dst s) n)) \/
     (In Uns (snd (react D (sh_dst s) n)) /\ sh_log s' = sh_log s ++ [n; Uns])) /\
    sh_closed s' = true.
Proof. exact @reach_terminal. Qed.
Print Assumptions C14_terminal.

Theorem C14_unsubscribe : forall A E (D : dest A E) d0 ns s,
  top_calls (sh_new D d0) ns = Fine s -> sh_closed s = false ->
  exists s', top_call s Uns = Fine s' /\ sh_log s' = sh_log s ++ [Uns] /\
    sh_dst s' = fst (react D (sh_dst s) Uns) /\ sh_closed s' = true.
Proof. exact @reach_unsub. Qed.
Print Assumptions C14_unsubscribe.

Example C14_ex_echo : exists s,
  top_calls (sh_new echo false) [Nxt 2; Nxt 5; Cmp; Uns] = Fine s /\
  sh_log s = [Nxt 2; Nxt 1; Nxt 1; Nxt 0; Nxt 0; Nxt 0; Nxt 0; Cmp].
Proof. eexists. split; vm_compute; reflexivity. Qed.
Example C14_ex_cascade : cascade echo 9 false [(0, Nxt 1)] true [Nxt 1; Nxt 0; Nxt 0; Cmp].
Proof.
  eapply cascade_next; try reflexivity; [right; lia|]. cbn.
  eapply cascade_next; try reflexivity; [right; lia|]. cbn.
  eapply cascade_next; try reflexivity; [right; lia|]. cbn.
  eapply cascade_close; try reflexivity. right; lia.
Qed.
(** Where the limit lies: nine generations pass, ten are all delivered and then panic. *)
Example C14_ex_limit :
  (exists s, top_call (sh_new chain false) (Nxt 9) = Fine s /\ length (sh_log s) = 10) /\
  (exists s, top_call (sh_new chain false) (Nxt 10) = Panicked s /\ length (sh_log s) = 11).
Proof. split; eexists; split; vm_compute; reflexivity. Qed.

(** *** C15. Values carry the number of the thread that pushes them. At any time,
    under any interleaving, what was delivered of a thread is a prefix of what it pushed:
    nothing is duplicated, reordered or skipped. *)
Theorem C15_thread_order : forall W (prog : nat -> list (nat * W)) ts,
  (forall t v, In v (prog t) -> fst v = t) ->
  forall t, exists r, of_thread t (out (schedule (sys0 prog) ts)) ++ r = prog t.
Proof. exact @always_prefix. Qed.
Print Assumptions C15_thread_order.

(** When all calls have returned, every value is delivered or still in the queue. *)
Theorem C15_nothing_lost_partial : forall W (prog : nat -> list (nat * W)) ts,
  (forall t v, In v (prog t) -> fst v = t) ->
  at_rest (schedule (sys0 prog) ts) ->
  forall t, of_thread t (out (schedule (sys0 prog) ts) ++ queue (schedule (sys0 prog) ts)) = prog t.
Proof. exact @rest_accounted. Qed.
Print Assumptions C15_nothing_lost_partial.

(** One more call, undisturbed, delivers what was left in the queue before its own value. *)
Theorem C15_flushed_by_next_call_partial : forall W (prog : nat -> list (nat * W)) ts t v,
  at_rest (schedule (sys0 prog) ts) ->
  (forall t v, In v (prog t) -> fst v = t) ->
  let s := schedule (sys0 prog) ts in
  let s1 := {| pcs := pcs s; todo := upd (todo s) t [v]; owner := owner s;
               queue := queue s; out := out s |} in
  exists n, let s' := schedule s1 (repeat t n) in
    at_rest s' /\ queue s' = [] /\ out s' = out s ++ queue s ++ [v].
Proof. exact @rest_flush. Qed.
Print Assumptions C15_flushed_by_next_call_partial.

(** The full statement is false of the code: a value deferred while another thread is
    about to release the lock in try_apply_deferred stays in the queue after all calls
    have returned. *)
Definition two (t : nat) : list (nat * nat) :=
  match t with 0 => [(0, 10)] | 1 => [(1, 20); (1, 21)] | _ => [] end.
Definition strand : list nat :=
  [0;0;0;0;0; 1;1;1;1;1;1; 0;0;0;0;0;0;0; 1;1;1;1;1;1; 0].
Theorem C15_stranded_refuted : exists (prog : nat -> list (nat * nat)) ts,
  (forall t v, In v (prog t) -> fst v = t) /\
  at_rest (schedule (sys0 prog) ts) /\
  out (schedule (sys0 prog) ts) = [(0, 10); (1, 20)] /\
  prog 1 = [(1, 20); (1, 21)].
Proof.
  exists two, strand. split; [|split; [|vm_compute; auto]].
  - intros [|[|t]] v; cbn; intuition; subst; auto.
  - intros [|[|t]]; vm_compute; auto.
Qed.
Print Assumptions C15_stranded_refuted.

(** Also, a thread that only ever calls next can hit the depth panic when another
    thread keeps pushing, without any recursion. *)
Definition flood (t : nat) : list (nat * nat) :=
  match t with
  | 0 => [(0, 10)]
  | 1 => map (pair 1) [0;1;2;3;4;5;6;7;8;9]
  | _ => []
  end.
Theorem C15_depth_panic_refuted : exists (prog : nat -> list (nat * nat)) ts,
  pcs (schedule (sys0 prog) ts) 0 = Dead (Some (0, 10)).
Proof.
  exists flood, ([0;0;0;0] ++ concat (repeat [1;1;1;1;1;1;0;0] 10) ++ [0]). vm_compute. reflexivity.
Qed.
Print Assumptions C15_depth_panic_refuted.

Example C15_ex : let s := schedule (sys0 two) (strand ++ [0;0]) in
  queue s = [(1, 21)] /\ of_thread 1 (out s) = [(1, 20)] /\
  out (schedule (sys0 two) (repeat 1 20 ++ repeat 0 20)) = [(1, 20); (1, 21); (0, 10)].
Proof. vm_compute; auto. Qed.
