(** Property C42: the connectable observable, and share.

    [sync k] are the calls the source makes while it is being subscribed to for the k-th time,
    [live k] says whether its subscription is then open; [down i] says when subscriber [i] closes
    themself; [order] is the order in which subscribers are told. A history [h] is a list of calls
    of the users and of the source. [v_tr (run … h)] is the list of everything that happened. *)
From Verif Require Import Base SubscrModel LifeModel CombModel ShareModel ShareSpec ShareProofs ShareRun.
From Coq Require Import Permutation.
Set Implicit Arguments.

(** The source is subscribed to only while no subscription to it is running. *)
Theorem C42_one : forall A E o down sync live order, (forall n l, Permutation (order n l) l) ->
  forall h, always (@one A E) (v_tr (run o down sync live order h)).
Proof. exact share_one. Qed.
Print Assumptions C42_one.

(** It is heard only while it is subscribed to. *)
Theorem C42_heard : forall A E o down sync live order, (forall n l, Permutation (order n l) l) ->
  forall h, always (@heard A E) (v_tr (run o down sync live order h)).
Proof. exact share_heard. Qed.
Print Assumptions C42_heard.

(** [connect] subscribes to it, unless it is subscribed to. *)
Theorem C42_connect : forall A E o down sync live order, (forall n l, Permutation (order n l) l) ->
  forall (h : list (act A E)), let p := v_tr (run o down sync live order h) in let p' := v_tr (run o down sync live order (h ++ [AConnect])) in
  (exists k, running k p = true) /\ p' = p \/
  exists c t b, p' = p ++ TSub (subs p) c :: t ++ [TReady (subs p) b] /\ b = running (subs p) (p ++ TSub (subs p) c :: t) && live (subs p).
Proof. exact share_connect. Qed.
Print Assumptions C42_connect.
(** So does subscribing to [share]. *)
Theorem C42_share : forall A E o down sync live order, (forall n l, Permutation (order n l) l) ->
  forall (h : list (act A E)), let p := v_tr (run o down sync live order h) in let p' := v_tr (run o down sync live order (h ++ [AShare])) in
  exists i e, (e = TOut i Cmp \/ (exists y, e = TOut i (Err y)) \/ exists c, e = TJoin i c) /\
  ((exists k, running k p = true) /\ p' = p ++ [e] \/
   exists c t b, p' = p ++ e :: TSub (subs p) c :: t ++ [TReady (subs p) b] /\ b = running (subs p) (p ++ e :: TSub (subs p) c :: t) && live (subs p) /\
     (forall d, e = TJoin i d -> d = c)).
Proof. exact share_share. Qed.
Print Assumptions C42_share.

(** All who subscribe while it is subscribed to join its connection. *)
Theorem C42_joins : forall A E o down sync live order, (forall n l, Permutation (order n l) l) ->
  forall h, always (@joins A E) (v_tr (run o down sync live order h)).
Proof. exact share_joins. Qed.
Print Assumptions C42_joins.
(** What it says is told at once, once, to all who joined the connector of its connection and have
    not left, and to nobody else. *)
Theorem C42_shared : forall A E o down sync live order, (forall n l, Permutation (order n l) l) ->
  forall h, answers (@shared A E) (v_tr (run o down sync live order h)).
Proof. exact share_shared. Qed.
Print Assumptions C42_shared.
(** Whoever is told something was there when it was said; or came after the end of a connector that
    was not to be replaced, and is told that end only. *)
Theorem C42_tells : forall A E o down sync live order, (forall n l, Permutation (order n l) l) ->
  forall h, always (@tells A E o) (v_tr (run o down sync live order h)).
Proof. exact share_tells. Qed.
Print Assumptions C42_tells.
(** Subscribers leave once, and at once when they are told the end or close themselves. *)
Theorem C42_leaves : forall A E o down sync live order, (forall n l, Permutation (order n l) l) ->
  forall h, always (@leaves A E) (v_tr (run o down sync live order h)).
Proof. exact share_leaves. Qed.
Print Assumptions C42_leaves.
Theorem C42_quits : forall A E o down sync live order, (forall n l, Permutation (order n l) l) ->
  forall h, answers (@quits A E down) (v_tr (run o down sync live order h)).
Proof. exact share_quits. Qed.
Print Assumptions C42_quits.

(** A connector is used until something replaces it; then a new one. *)
Theorem C42_same : forall A E o down sync live order, (forall n l, Permutation (order n l) l) ->
  forall h, always (@same A E o) (v_tr (run o down sync live order h)).
Proof. exact share_same. Qed.
Print Assumptions C42_same.
Theorem C42_fresh : forall A E o down sync live order, (forall n l, Permutation (order n l) l) ->
  forall h, always (@fresh A E o) (v_tr (run o down sync live order h)).
Proof. exact share_fresh. Qed.
Print Assumptions C42_fresh.

(** A connection is ended only by the user, or when the last subscriber leaves, if it is to be, and
    if the source has never completed or failed. *)
Theorem C42_ends : forall A E o down sync live order, (forall n l, Permutation (order n l) l) ->
  forall h, always (@ends A E o) (v_tr (run o down sync live order h)).
Proof. exact share_ends. Qed.
Print Assumptions C42_ends.
Theorem C42_disconnect : forall A E o down sync live order, (forall n l, Permutation (order n l) l) ->
  forall (h : list (act A E)) a, a = ADisconnect \/ a = AReset -> forall k, running k (v_tr (run o down sync live order (h ++ [a]))) = false.
Proof. exact share_disconnect. Qed.
Print Assumptions C42_disconnect.
(** It is ended when the last subscriber leaves, if [connect] has returned and the source has never
    completed or failed. Missing: without these conditions, see below. *)
Theorem C42_dropped_partial : forall A E o down sync live order, (forall n l, Permutation (order n l) l) ->
  forall h, answers (@dropped A E o) (v_tr (run o down sync live order h)).
Proof. exact share_dropped. Qed.
Print Assumptions C42_dropped_partial.

Definition stays (i : nat) (l : list (ncall nat nat)) : bool := false.
Definition silent (k : nat) : list (ncall nat nat) := [].
Definition running_all (k : nat) : bool := true.
Definition as_is (n : nat) (l : list nat) : list nat := l.
(** Replaces its connector whenever it can, and counts references. *)
Definition all_on : opts := mkOpts true true true true.

Example C42_example_shared : v_tr (run all_on stays silent running_all as_is [AShare; AShare; ASource 0 (Nxt 5); AUnsubscribe 0; ASource 0 (Nxt 6); AUnsubscribe 1; ASource 0 (Nxt 7); AShare; ASource 1 (Nxt 8)]) =
  [TJoin 0 0; TSub 0 0; TReady 0 true; TJoin 1 0; TIn 0 (Nxt 5); TOut 0 (Nxt 5); TOut 1 (Nxt 5); TLeave 0; TIn 0 (Nxt 6); TOut 1 (Nxt 6); TLeave 1; TEnd 0;
   TJoin 2 1; TSub 1 1; TReady 1 true; TIn 1 (Nxt 8); TOut 2 (Nxt 8)].
Proof. vm_compute. reflexivity. Qed.
Example C42_example_connect : v_tr (run (mkOpts false false false false) stays (fun k => [Nxt k]) running_all as_is [ASubscribe; AConnect; AConnect; ASubscribe; ASource 0 Cmp; ASubscribe; AConnect; ADisconnect]) =
  [TJoin 0 0; TSub 0 0; TIn 0 (Nxt 0); TOut 0 (Nxt 0); TReady 0 true; TJoin 1 0; TIn 0 Cmp; TOut 0 Cmp; TLeave 0; TOut 1 Cmp; TLeave 1;
   TOut 2 Cmp; TSub 1 0; TIn 1 (Nxt 1); TReady 1 true; TUser; TEnd 1].
Proof. vm_compute. reflexivity. Qed.
Example C42_example_order : forall n l, Permutation (as_is n l) l.
Proof. intros. apply Permutation_refl. Qed.
Example C42_example_quits : outs (v_tr (run all_on (fun i l => Nat.leb (S i) (length l)) silent running_all (fun _ l => rev l) [AShare; AShare; ASource 0 (Nxt 5); ASource 0 (Nxt 6); ASource 0 (Nxt 7)])) =
  [(1, Nxt 5); (0, Nxt 5); (1, Nxt 6)].
Proof. vm_compute. reflexivity. Qed.

(** False: a connection is ended when the last subscriber leaves. After the source has completed
    once, [has_completed] stays set, even though the connector was replaced; later connections are
    not ended. *)
Theorem C42_dropped_refuted : exists (h : list (act nat nat)) k, let p := v_tr (run all_on stays silent running_all as_is h) in
  h = [AShare; ASource 0 Cmp; AShare; AUnsubscribe 1] /\ present p = [] /\ ready k p = true /\ running k p = true.
Proof. exists [AShare; ASource 0 Cmp; AShare; AUnsubscribe 1], 1. vm_compute. auto. Qed.
Print Assumptions C42_dropped_refuted.
(** Nor is one that the last subscriber leaves while it is being made. *)
Theorem C42_dropped_sync_refuted : exists (h : list (act nat nat)) k, let p := v_tr (run all_on (fun _ _ => true) (fun k => [Nxt k]) running_all as_is h) in
  h = [AShare] /\ finished p = false /\ joined p = [0] /\ present p = [] /\ running k p = true.
Proof. exists [AShare], 0. vm_compute. auto 6. Qed.
Print Assumptions C42_dropped_sync_refuted.
(** Nor one left by all its subscribers, as long as a former connector has some. *)
Theorem C42_dropped_former_refuted : exists (h : list (act nat nat)) k c, let p := v_tr (run all_on stays silent running_all as_is h) in
  h = [AShare; AReset; AShare; AUnsubscribe 1] /\ finished p = false /\ ready k p = true /\ In (TSub k c) p /\ joined_to c p = [1] /\ members c p = [] /\ running k p = true.
Proof. exists [AShare; AReset; AShare; AUnsubscribe 1], 1, 1. vm_compute. repeat split; auto 12. Qed.
Print Assumptions C42_dropped_former_refuted.
(** False: a source that has completed is not subscribed to again unless the connector is replaced;
    it is, and its values are told to nobody. *)
Theorem C42_again_refuted : exists (h : list (act nat nat)), let p := v_tr (run (mkOpts true true true false) stays silent running_all as_is h) in
  p = [TJoin 0 0; TSub 0 0; TReady 0 true; TIn 0 Cmp; TOut 0 Cmp; TLeave 0; TOut 1 Cmp; TSub 1 0; TReady 1 true; TIn 1 (Nxt 5)].
Proof. exists [AShare; ASource 0 Cmp; AShare; ASource 1 (Nxt 5)]. vm_compute. reflexivity. Qed.
Print Assumptions C42_again_refuted.
