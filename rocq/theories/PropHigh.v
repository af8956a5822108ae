(** Properties C34 to C36, C50 and C53: concat/merge (concurrent), switch and exhaust.

    A history [h] is a list of what happens from outside: the outer observable emits an inner one
    (with the calls it makes while being subscribed to), errors, completes, the subscription is
    unsubscribed, an inner observable makes a call. [down] says after which calls the destination
    has closed itself. [flatten down k fuel h init = Fine s] says that nothing panicked; [s_tr s]
    is the list of what happened. C53 says that there is always enough fuel. *)
From Coq Require Import NArith.
From Verif Require Import Base SubscrModel LifeModel LifeProofs CombModel HoModel HoSpec.
From Verif Require Import HoProofs HoConc HoConc2 HoConc3 HoConc4 HoStop HoOne HoOne2 HoOne3 HoAll.
Set Implicit Arguments.

Definition never (l : list (ncall nat nat)) : bool := false.
Definition after1 (l : list (ncall nat nat)) : bool := 1 <=? length l.
Definition trace (r : res nat nat) : option (list (ev nat nat)) :=
  match r with Fine s => Some (s_tr s) | _ => None end.

(** *** C34: concurrent flattening with limit [L] ([concat] is [L = 1]). *)
(** At most [L] inner observables at a time. *)
Theorem C34_limit : forall A E down L, 1 <= L -> forall fuel (h : list (act A E)) s, flatten down (Concurrent L) fuel h init = Fine s -> always (limited down L) (s_tr s).
Proof. exact @concurrent_limit. Qed.
Print Assumptions C34_limit.

(** Each is subscribed to at most once. *)
Theorem C34_once : forall A E down L, 1 <= L -> forall fuel (h : list (act A E)) s, flatten down (Concurrent L) fuel h init = Fine s -> always (@once A E) (s_tr s).
Proof. exact @concurrent_once. Qed.
Print Assumptions C34_once.

(** In the order of arrival, if no inner observable unsubscribes without completing. *)
Theorem C34_order : forall A E down L, 1 <= L -> forall fuel (h : list (act A E)) s, no_uns h = true -> flatten down (Concurrent L) fuel h init = Fine s -> always (in_order down) (s_tr s).
Proof. exact @concurrent_order. Qed.
Print Assumptions C34_order.

(** One waits only if [L] are running, and the destination is open only if something is not complete. *)
Theorem C34_prompt : forall A E down L, 1 <= L -> forall fuel (h : list (act A E)) s, no_uns h = true -> flatten down (Concurrent L) fuel h init = Fine s -> prompt down L (s_tr s).
Proof. exact @concurrent_prompt. Qed.
Print Assumptions C34_prompt.

(** The destination is told values and errors as they come, [Cmp] only when the outer and all inner
    observables have completed, and nothing after its end. *)
Theorem C34_relays : forall A E down L, 1 <= L -> forall fuel (h : list (act A E)) s, no_uns h = true -> flatten down (Concurrent L) fuel h init = Fine s -> always (relays down (@all_completed A E)) (s_tr s).
Proof. exact @concurrent_relays. Qed.
Print Assumptions C34_relays.

(** With limit 1, the result is the concatenation: no inner observable is heard before those that
    arrived earlier have completed. *)
Theorem C34_concat : forall A E down fuel (h : list (act A E)) s, no_uns h = true ->
  flatten down (Concurrent 1) fuel h init = Fine s -> always (one_by_one down) (s_tr s).
Proof. exact (fun A E down fuel h s => @concurrent_one_by_one A E down 1 (le_n 1) fuel h s eq_refl). Qed.
Print Assumptions C34_concat.

(** Every value and error is passed on at once while the destination is open: all three operators. *)
Theorem C34_passed_on : forall A E down k fuel (h : list (act A E)) s,
  flatten down k fuel h init = Fine s -> paid down (s_tr s).
Proof. exact @passed_on. Qed.
Print Assumptions C34_passed_on.
(** So is the unsubscription. *)
Theorem C34_unsubscribed : forall A E down k fuel (h : list (act A E)) s,
  flatten down k fuel h init = Fine s -> obeys down (s_tr s).
Proof. exact @obeyed. Qed.
Print Assumptions C34_unsubscribed.

Definition h34 : list (act nat nat) :=
  [AArrive [Nxt 1]; AArrive []; AArrive [Nxt 5; Cmp]; AArrive [Nxt 7]; AInner 1 (Nxt 2);
   AInner 0 Cmp; ACmp; AInner 1 Cmp; AInner 3 Cmp].
Example C34_merge_example :
  trace (flatten never (Concurrent 2) 100 h34 init) =
  Some [TArrive 0; TSub 0; TIn 0 (Nxt 1); TOut (Nxt 1); TArrive 1; TSub 1; TArrive 2; TArrive 3;
        TIn 1 (Nxt 2); TOut (Nxt 2); TIn 0 Cmp; TSub 2; TIn 2 (Nxt 5); TOut (Nxt 5); TIn 2 Cmp;
        TSub 3; TIn 3 (Nxt 7); TOut (Nxt 7); TEnd 2; TEnd 0; TUp Cmp; TIn 1 Cmp; TEnd 1;
        TIn 3 Cmp; TOut Cmp; TEnd 3].
Proof. vm_compute. reflexivity. Qed.
Example C34_concat_example :
  option_map (@outs nat nat) (trace (flatten never (Concurrent 1) 100
    [AArrive [Nxt 1]; AArrive [Nxt 3; Cmp]; AArrive [Nxt 4]; AInner 0 (Nxt 2); AInner 0 Cmp; ACmp; AInner 2 Cmp] init)) =
  Some [Nxt 1; Nxt 2; Nxt 3; Nxt 4; Cmp].
Proof. vm_compute. reflexivity. Qed.

(** If an inner observable unsubscribes its subscriber without completing, its slot is given up
    but those that wait are forgotten: observable 3 is never subscribed to although nothing but 2
    is running, and observable 4 overtakes it. *)
Theorem C34_order_refuted : exists (h : list (act nat nat)) s p q,
  contract false false (outer h) /\ flatten never (Concurrent 2) 100 h init = Fine s /\
  s_tr s = p ++ TSub 4 :: q /\ open never p /\ subscribed 3 (s_tr s) = false /\ running p = 1.
Proof.
  exists [AArrive []; AArrive []; AArrive []; AArrive []; AInner 0 Uns; AInner 1 Uns; AArrive []].
  eexists. exists [TArrive 0; TSub 0; TArrive 1; TSub 1; TArrive 2; TArrive 3; TIn 0 Uns; TEnd 0; TSub 2; TIn 1 Uns; TEnd 1; TArrive 4]. exists [].
  split; [cbn; repeat split|]. split; [vm_compute; reflexivity|]. split; [vm_compute; reflexivity|]. split; [|vm_compute; auto].
  intros os c os' H. destruct os; discriminate.
Qed.
Print Assumptions C34_order_refuted.

(** *** C35: switch. *)

(** Only the latest inner observable is heard. *)
Theorem C35_heard : forall A E down fuel (h : list (act A E)) s, flatten down Switch fuel h init = Fine s -> always (@heard A E) (s_tr s).
Proof. exact @switch_heard. Qed.
Print Assumptions C35_heard.

(** Each is subscribed to at most once, and as it arrives; only the one before it may be unsubscribed first. *)
Theorem C35_once : forall A E down fuel (h : list (act A E)) s, flatten down Switch fuel h init = Fine s -> always (@once A E) (s_tr s) /\ always (@fresh A E) (s_tr s).
Proof. exact (fun A E down fuel h s R => conj (@one_once A E down Switch I fuel h s R) (@one_fresh A E down Switch I fuel h s R)). Qed.
Print Assumptions C35_once.

(** The previous one is over by then. *)
Theorem C35_alone : forall A E down fuel (h : list (act A E)) s, flatten down Switch fuel h init = Fine s -> always (@alone A E) (s_tr s).
Proof. exact (fun A E down fuel h s => @one_alone A E down Switch I fuel h s). Qed.
Print Assumptions C35_alone.

(** Every arrival is subscribed to, as long as the destination is open. *)
Theorem C35_taken : forall A E down fuel (h : list (act A E)) s, flatten down Switch fuel h init = Fine s -> taken down (fun _ => True) (s_tr s).
Proof. exact @switch_taken. Qed.
Print Assumptions C35_taken.

(** The destination is told values and errors as they come, [Cmp] only when the outer and the latest
    inner observable have completed, and nothing after its end. *)
Theorem C35_relays : forall A E down fuel (h : list (act A E)) s, no_uns h = true -> flatten down Switch fuel h init = Fine s -> always (relays down (@latest_completed A E)) (s_tr s).
Proof. exact @switch_relays. Qed.
Print Assumptions C35_relays.

(** And it is told so. *)
Theorem C35_completes : forall A E down fuel (h : list (act A E)) s, no_uns h = true -> flatten down Switch fuel h init = Fine s -> open down (s_tr s) -> ~ latest_completed (s_tr s).
Proof. exact @switch_done. Qed.
Print Assumptions C35_completes.

Example C35_example :
  trace (flatten never Switch 100 [AArrive [Nxt 1]; AInner 0 (Nxt 2); AArrive [Nxt 3]; AInner 0 (Nxt 4); ACmp; AInner 1 (Nxt 5); AInner 1 Cmp] init) =
  Some [TArrive 0; TSub 0; TIn 0 (Nxt 1); TOut (Nxt 1); TIn 0 (Nxt 2); TOut (Nxt 2); TArrive 1; TEnd 0; TSub 1;
        TIn 1 (Nxt 3); TOut (Nxt 3); TUp Cmp; TIn 1 (Nxt 5); TOut (Nxt 5); TIn 1 Cmp; TOut Cmp; TEnd 1].
Proof. vm_compute. reflexivity. Qed.

(** An inner observable that unsubscribes without completing: if the outer one completes after
    that, so does the result; the other way round it is unsubscribed. *)
Theorem C35_completes_refuted : exists h h' : list (act nat nat),
  h = [AArrive []; AInner 0 Uns; ACmp] /\ h' = [AArrive []; ACmp; AInner 0 Uns] /\
  option_map (@outs nat nat) (trace (flatten never Switch 100 h init)) = Some [Cmp] /\
  option_map (@outs nat nat) (trace (flatten never Switch 100 h' init)) = Some [Uns].
Proof. eexists. eexists. repeat split. Qed.
Print Assumptions C35_completes_refuted.

(** *** C36: exhaust. *)

(** An inner observable is subscribed to as it arrives while none is running, or never. *)
Theorem C36_idle : forall A E down fuel (h : list (act A E)) s, flatten down Exhaust fuel h init = Fine s -> always (@idle A E) (s_tr s) /\ always (@once A E) (s_tr s).
Proof. exact (fun A E down fuel h s R => conj (@exhaust_idle A E down fuel h s R) (@one_once A E down Exhaust I fuel h s R)). Qed.
Print Assumptions C36_idle.

(** It is, as long as the destination is open. *)
Theorem C36_taken : forall A E down fuel (h : list (act A E)) s, flatten down Exhaust fuel h init = Fine s -> taken down (fun p => running p = 0) (s_tr s).
Proof. exact @exhaust_taken. Qed.
Print Assumptions C36_taken.

(** The destination is told values and errors as they come, [Cmp] only when the outer and all inner
    observables subscribed to have completed, and nothing after its end. *)
Theorem C36_relays : forall A E down fuel (h : list (act A E)) s, no_uns h = true -> flatten down Exhaust fuel h init = Fine s -> always (relays down (@taken_completed A E)) (s_tr s).
Proof. exact @exhaust_relays. Qed.
Print Assumptions C36_relays.

(** And it is told so. *)
Theorem C36_completes : forall A E down fuel (h : list (act A E)) s, no_uns h = true -> flatten down Exhaust fuel h init = Fine s -> open down (s_tr s) -> ~ taken_completed (s_tr s).
Proof. exact @exhaust_done. Qed.
Print Assumptions C36_completes.

Example C36_example :
  trace (flatten never Exhaust 100 [AArrive [Nxt 1]; AArrive [Nxt 9]; AInner 0 (Nxt 2); AInner 0 Cmp; AArrive [Nxt 3]; ACmp; AInner 2 Cmp] init) =
  Some [TArrive 0; TSub 0; TIn 0 (Nxt 1); TOut (Nxt 1); TArrive 1; TIn 0 (Nxt 2); TOut (Nxt 2); TIn 0 Cmp; TEnd 0;
        TArrive 2; TSub 2; TIn 2 (Nxt 3); TOut (Nxt 3); TUp Cmp; TIn 2 Cmp; TOut Cmp; TEnd 2].
Proof. vm_compute. reflexivity. Qed.
(** As for switch. *)
Theorem C36_completes_refuted : exists h h' : list (act nat nat),
  h = [AArrive []; AInner 0 Uns; ACmp] /\ h' = [AArrive []; ACmp; AInner 0 Uns] /\
  option_map (@outs nat nat) (trace (flatten never Exhaust 100 h init)) = Some [Cmp] /\
  option_map (@outs nat nat) (trace (flatten never Exhaust 100 h' init)) = Some [Uns].
Proof. eexists. eexists. repeat split. Qed.
Print Assumptions C36_completes_refuted.

(** *** C50: nothing goes on after the end. *)
(** With a limit of 2 or more, nothing is subscribed to after the end and all is unsubscribed. *)
Theorem C50_merge : forall A E down L, 2 <= L -> forall fuel (h : list (act A E)) s,
  flatten down (Concurrent L) fuel h init = Fine s -> always (none_late down) (s_tr s) /\ released down (s_tr s).
Proof. exact (fun A E down L HL fuel h s R => conj (@concurrent_none_late A E down L HL fuel h s R) (@concurrent_released A E down L HL fuel h s R)). Qed.
Print Assumptions C50_merge.
(** With limit 1, unsubscribing subscribes to the next one that waits, which then stays. *)
Theorem C50_concat_refuted : exists (h : list (act nat nat)) s p q,
  contract false false (outer h) /\ flatten never (Concurrent 1) 100 h init = Fine s /\
  s_tr s = p ++ TSub 1 :: q /\ outs p = [Uns] /\ ended 1 (s_tr s) = false.
Proof.
  exists [AArrive []; AArrive []; AUns]. eexists. exists [TArrive 0; TSub 0; TArrive 1; TUp Uns; TOut Uns; TEnd 0]. exists [].
  split; [cbn; repeat split|]. split; [vm_compute; reflexivity|]. vm_compute. auto.
Qed.
Print Assumptions C50_concat_refuted.
(** switch unsubscribes everything at the end *)
Theorem C50_switch : forall A E down fuel (h : list (act A E)) s,
  flatten down Switch fuel h init = Fine s -> released down (s_tr s).
Proof. exact @switch_released. Qed.
Print Assumptions C50_switch.
Example C50_example :
  trace (flatten never Switch 100 [AArrive []; AArrive []; AUns] init) =
  Some [TArrive 0; TSub 0; TArrive 1; TEnd 0; TSub 1; TUp Uns; TOut Uns; TEnd 1] /\
  trace (flatten after1 (Concurrent 2) 100 [AArrive []; AArrive []; AArrive []; AInner 1 (Nxt 7); AArrive []] init) =
  Some [TArrive 0; TSub 0; TArrive 1; TSub 1; TArrive 2; TIn 1 (Nxt 7); TOut (Nxt 7); TEnd 0; TEnd 1].
Proof. vm_compute. auto. Qed.
(** With a destination that never closes itself, switch and exhaust subscribe to nothing after the
    end and unsubscribe everything. *)
Theorem C50_passive : forall A E down k fuel (h : list (act A E)) s, (forall l, down l = false) -> match k with Concurrent _ => False | _ => True end ->
  flatten down k fuel h init = Fine s -> always (none_late down) (s_tr s) /\ released down (s_tr s).
Proof. exact @passive_over. Qed.
Print Assumptions C50_passive.
Example C50_passive_example :
  trace (flatten never Exhaust 100 [AArrive []; AInner 0 (Err 4); AArrive []] init) =
  Some [TArrive 0; TSub 0; TIn 0 (Err 4); TOut (Err 4); TEnd 0] /\
  trace (flatten never Exhaust 100 [AArrive []; AErr 5; AArrive []] init) =
  Some [TArrive 0; TSub 0; TUp (Err 5); TOut (Err 5); TEnd 0].
Proof. vm_compute. auto. Qed.
(** but after the destination closed itself, it subscribes to one more. *)
Theorem C50_switch_refuted : exists (h : list (act nat nat)) s p q,
  contract false false (outer h) /\ flatten after1 Switch 100 h init = Fine s /\
  s_tr s = p ++ TSub 1 :: q /\ ~ open after1 p.
Proof.
  exists [AArrive []; AInner 0 (Nxt 1); AArrive []]. eexists. exists [TArrive 0; TSub 0; TIn 0 (Nxt 1); TOut (Nxt 1); TEnd 0; TArrive 1]. eexists.
  split; [cbn; repeat split|]. split; [vm_compute; reflexivity|]. split; [vm_compute; reflexivity|].
  intros O. destruct (O [] (Nxt 1) [] eq_refl) as [_ H]. discriminate.
Qed.
Print Assumptions C50_switch_refuted.
(** So does exhaust, and this one stays. *)
Theorem C50_exhaust_refuted : exists (h : list (act nat nat)) s p q,
  contract false false (outer h) /\ flatten after1 Exhaust 100 h init = Fine s /\
  s_tr s = p ++ TSub 1 :: q /\ ~ open after1 p /\ ended 1 (s_tr s) = false.
Proof.
  exists [AArrive []; AInner 0 (Nxt 1); AArrive []]. eexists. exists [TArrive 0; TSub 0; TIn 0 (Nxt 1); TOut (Nxt 1); TEnd 0; TArrive 1]. exists [].
  split; [cbn; repeat split|]. split; [vm_compute; reflexivity|]. split; [vm_compute; reflexivity|]. split; [|vm_compute; reflexivity].
  intros O. destruct (O [] (Nxt 1) [] eq_refl) as [_ H]. discriminate.
Qed.
Print Assumptions C50_exhaust_refuted.

(** *** C53: the operators end and do not panic. *)
Theorem C53_ends : forall A E down k (h : list (act A E)) s,
  exists fuel, forall fuel', fuel <= fuel' -> flatten down k fuel' h s <> Hang.
Proof. exact @flatten_ends. Qed.
Print Assumptions C53_ends.
Theorem C53_merge : forall A E down L (h : list (act A E)), 1 <= L -> contract false false (outer h) ->
  exists fuel, forall fuel', fuel <= fuel' -> exists s, flatten down (Concurrent L) fuel' h init = Fine s.
Proof. exact @concurrent_runs. Qed.
Print Assumptions C53_merge.
Example C53_example : contract false false (outer h34) /\ flatten never (Concurrent 2) 100 h34 init <> Panic.
Proof. split; [cbn; repeat split|vm_compute; discriminate]. Qed.
(** One at a time, unsubscribed while two wait: the second is subscribed to on the way out. *)
Example C53_concat_example : let h := [AArrive [Nxt 1]; AArrive [Nxt 2]; AArrive [Err 3]; AUns; AInner 1 Cmp] in
  contract false false (outer h) /\
  trace (flatten never (Concurrent 1) 100 h init) =
  Some [TArrive 0; TSub 0; TIn 0 (Nxt 1); TOut (Nxt 1); TArrive 1; TArrive 2; TUp Uns; TOut Uns; TEnd 0; TSub 1; TIn 1 (Nxt 2); TEnd 1].
Proof. split; [cbn; repeat split|vm_compute; reflexivity]. Qed.
(** switch and exhaust do not panic unless the destination closes itself. *)
Theorem C53_passive : forall A E down k (h : list (act A E)), (forall l, down l = false) -> match k with Concurrent _ => False | _ => True end ->
  contract false false (outer h) ->
  exists fuel, forall fuel', fuel <= fuel' -> exists s, flatten down k fuel' h init = Fine s.
Proof. exact @passive_runs. Qed.
Print Assumptions C53_passive.
Example C53_passive_example : let h := [AArrive [Nxt 1]; AArrive [Nxt 2; Cmp]; AInner 0 Cmp; ACmp; AInner 0 (Err 3)] in
  contract false false (outer h) /\ flatten never Switch 100 h init <> Panic /\ flatten never Exhaust 100 h init <> Panic.
Proof. split; [cbn; repeat split|]. split; vm_compute; discriminate. Qed.
(** switch and exhaust panic if the destination closes itself and the next inner observable errors
    while being subscribed to. *)
Theorem C53_switch_refuted : exists h : list (act nat nat),
  contract false false (outer h) /\ flatten after1 Switch 100 h init = Panic /\ flatten after1 Exhaust 100 h init = Panic.
Proof. exists [AArrive []; AInner 0 (Nxt 1); AArrive [Err 1]]. split; [cbn; repeat split|]. vm_compute. auto. Qed.
Print Assumptions C53_switch_refuted.
