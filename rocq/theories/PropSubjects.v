(** Properties C16 to C22 and C47: the subjects.

    [outer_users prog ord P (sj_new P) us] is the state after the calls [us] made from
    outside on a subject of kind [P] (plain, behavior v, replay n, async f). [prog]
    says how each subscriber reacts to what it is told: the calls it makes on the same
    subject from inside its callback, and whether it closes itself. [ord] is the order
    in which the table of subscribers is iterated, each time. [sj_user] lists all calls,
    from outside and from inside, in the order they were made; subscribers are numbered
    in the order of the subscribe calls, so that the one subscribed by the call after
    [before] has number [subs_of before]. [history s i] is what subscriber [i] was told. *)
From Coq Require Import Permutation.
From Verif Require Import Base SubscrModel SubscrProofs OpsModel OpsSpec OpsPipe.
From Verif Require Import SubjectModel SubjectSpec SubjectProofs SubjectMore SubjectAsync ProvModel ProvProofs.
Set Implicit Arguments.

Definition some_order (ord : nat -> list nat -> list nat) : Prop :=
  forall k l, Permutation l (ord k l).
Notation behaviour A E := (nat -> list (sev A E) -> list (ucmd A E) * bool).

(** subscribers used in the examples *)
Definition deaf : behaviour nat bool := fun _ _ => ([], false).
(** subscriber 1 closes itself after two values *)
Definition impatient : behaviour nat bool := fun i h => ([], (i =? 1) && (2 <=? length h)).
(** a value above 10 makes subscriber 0 push two more; a value above 20 makes subscriber 1
    complete the subject, subscribe once more and push another one *)
Definition lively : behaviour nat bool := fun i h =>
  match i, last h SU with
  | 0, SN a => (if 10 <? a then [UNext (a - 10); UNext (a - 5)] else [], false)
  | 1, SN a => (if 20 <? a then [USub; UNext 3; UCmp; UNext 4] else [], false)
  | _, _ => ([], false)
  end.
Definition backwards (_ : nat) (l : list nat) : list nat := rev l.
Definition forwards (_ : nat) (l : list nat) : list nat := l.
Lemma backwards_order : some_order backwards.
Proof. intros k l. apply Permutation_rev. Qed.
Lemma forwards_order : some_order forwards.
Proof. intros k l. apply Permutation_refl. Qed.
Lemma deaf_quiet : quiet deaf.
Proof. intros i h. reflexivity. Qed.
Lemma impatient_quiet : quiet impatient.
Proof. intros i h. reflexivity. Qed.
Lemma lively_calm : calm lively.
Proof.
  intros i h. unfold lively. rewrite last_last. destruct i as [|[|i]]; reflexivity.
Qed.

(** *** C16: a subscriber is told exactly the values pushed from its subscription on,
    each once and in order, up to the first error, complete or unsubscribe of the subject,
    its own unsubscription, or its closing itself. *)
Theorem C16_exact_delivery : forall A E (prog : behaviour A E) ord, some_order ord -> quiet prog ->
  forall before after,
  history (outer_users prog ord plain (sj_new plain) (before ++ USub :: after)) (subs_of before) =
  upto (fun h => snd (prog (subs_of before) h)) [] (told_late (subs_of before) before after).
Proof. exact @plain_told. Qed.
Print Assumptions C16_exact_delivery.

Theorem C16_nobody_else : forall A E (prog : behaviour A E) ord, some_order ord -> quiet prog ->
  forall us i, subs_of us <= i -> history (outer_users prog ord plain (sj_new plain) us) i = [].
Proof. exact @plain_early. Qed.
Print Assumptions C16_nobody_else.

Theorem C16_iteration_order : forall A E (prog : behaviour A E) ord1 ord2 (P : policy A E),
  some_order ord1 -> some_order ord2 -> polite P -> quiet prog -> forall us i,
  history (outer_users prog ord1 P (sj_new P) us) i = history (outer_users prog ord2 P (sj_new P) us) i.
Proof. exact @order_irrelevant. Qed.
Print Assumptions C16_iteration_order.

Theorem C16_others_unaffected : forall A E (prog : behaviour A E) ord, some_order ord -> quiet prog ->
  forall us1 us2 i j, i <> j ->
  history (outer_users prog ord plain (sj_new plain) (us1 ++ UOff j :: us2)) i =
  history (outer_users prog ord plain (sj_new plain) (us1 ++ us2)) i.
Proof. exact @off_irrelevant. Qed.
Print Assumptions C16_others_unaffected.

Example C16_ex :
  let s := outer_users impatient backwards plain (sj_new plain)
    [UNext 1; USub; UNext 2; USub; UNext 3; USub; UNext 4; UOff 0; UNext 5; UErr true; UNext 6] in
  (history s 0, history s 1, history s 2) =
  ([SN 2; SN 3; SN 4; SU], [SN 3; SN 4], [SN 4; SN 5; SE true]).
Proof. vm_compute. reflexivity. Qed.
Example C16_ex_policies : polite (@plain nat bool) /\ polite (@behavior nat bool 1) /\
  polite (@replay nat bool 2) /\ polite (@async nat bool Nat.add).
Proof.
  split; [apply polite_plain|]. split; [apply polite_behavior|].
  split; [apply polite_replay|apply polite_async].
Qed.

(** *** C17: a subscriber that comes after the subject finished is told how it
    finished, and nothing else. Its reaction must not call the subject (see below). *)
Theorem C17_late : forall A E (prog : behaviour A E) ord, some_order ord ->
  forall us before after x, calm prog ->
  let s := outer_users prog ord plain (sj_new plain) us in
  running s = true -> sj_user s = before ++ USub :: after -> finish_of before = Some x ->
  history s (subs_of before) = [x].
Proof. exact @plain_late. Qed.
Print Assumptions C17_late.

Example C17_ex :
  let s := outer_users deaf forwards plain (sj_new plain)
    [USub; UNext 1; UErr true; UCmp; USub; UNext 2; UUns; USub] in
  (history s 0, history s 1, history s 2) = ([SN 1; SE true], [SE true], [SE true]).
Proof. vm_compute. reflexivity. Qed.

(** A late subscriber whose complete callback calls the subject locks deferred_state
    twice: the call never returns. *)
Theorem C17_reentrant_refuted : exists (prog : behaviour nat bool) us,
  calm prog /\ sj_halt (outer_users prog forwards plain (sj_new plain) us) = Some HDeadlock.
Proof.
  exists (fun _ h => match last h SU with SC => ([UNext 1], false) | _ => ([], false) end), [UCmp; USub].
  split; [|vm_compute; reflexivity]. intros i h. rewrite last_last. reflexivity.
Qed.
Print Assumptions C17_reentrant_refuted.

(** *** C18: with subscribers that push, subscribe, unsubscribe, complete and so on from
    inside their callbacks, what each subscriber is told is determined by the one order
    in which all calls were made. Excluded: calls made by teardowns ([calm]), the depth
    panic and the deadlock ([running]). *)
Theorem C18_one_order_partial : forall A E (prog : behaviour A E) ord, some_order ord -> calm prog ->
  forall us, let s := outer_users prog ord plain (sj_new plain) us in running s = true ->
  forall before after, sj_user s = before ++ USub :: after ->
  history s (subs_of before) =
  upto (fun h => snd (prog (subs_of before) h)) [] (told_late (subs_of before) before after).
Proof. exact @plain_calm. Qed.
Print Assumptions C18_one_order_partial.

(** so any two subscribers see the same sequence, from the later subscription on *)
Theorem C18_agree_partial : forall A E (prog : behaviour A E) ord, some_order ord -> calm prog ->
  forall us before mid after,
  let s := outer_users prog ord plain (sj_new plain) us in
  let i := subs_of before in let j := S (i + subs_of mid) in
  running s = true -> sj_user s = before ++ USub :: mid ++ USub :: after ->
  finish_of before = None -> finish_of mid = None ->
  ~ In (UOff i) (mid ++ after) -> ~ In (UOff j) after ->
  (forall h, snd (prog i h) = false) -> (forall h, snd (prog j h) = false) ->
  history s i = map SN (pushed mid) ++ history s j.
Proof. exact @plain_calm_agree. Qed.
Print Assumptions C18_agree_partial.

Example C18_ex :
  let s := outer_users lively backwards plain (sj_new plain) [USub; USub; UNext 30] in
  running s = true /\
  sj_user s = [USub; USub; UNext 30; USub; UNext 3; UCmp; UNext 4; UNext 20; UNext 25] /\
  (history s 0, history s 1, history s 2) =
  ([SN 30; SN 3; SC], [SN 30; SN 3; SC], [SN 3; SC]).
Proof. vm_compute. auto. Qed.
(** with the other iteration order the calls are made in another order, and all
    subscribers see that one *)
Example C18_ex_forwards :
  let s := outer_users lively forwards plain (sj_new plain) [USub; USub; UNext 30] in
  running s = true /\
  (history s 0, history s 1, history s 2) =
  ([SN 30; SN 20; SN 25; SN 3; SC], [SN 30; SN 20; SN 25; SN 3; SC], [SN 3; SC]).
Proof. vm_compute. auto. Qed.

(** A value pushed by a teardown that runs in unsubscribe() of a subscription stays in the
    queue: the call returns and subscriber 1, still subscribed, does not get it. *)
Theorem C18_stranded_refuted : exists (prog : behaviour nat bool) us,
  let s := outer_users prog forwards plain (sj_new plain) us in
  running s = true /\ sj_user s = [USub; USub; UOff 0; UNext 9] /\ history s 1 = [].
Proof.
  exists (fun i h => match i, last h SC with 0, SU => ([UNext 9], false) | _, _ => ([], false) end),
    [USub; USub; UOff 0].
  vm_compute. auto.
Qed.
Print Assumptions C18_stranded_refuted.

(** Ten generations of pushes are delivered and then panic. *)
Theorem C18_depth_refuted : exists (prog : behaviour nat bool) us,
  let s := outer_users prog forwards plain (sj_new plain) us in
  calm prog /\ sj_halt s = Some HPanic /\ length (history s 0) = 11.
Proof.
  exists (fun i h => match last h SC with SN (S a) => ([UNext a], false) | _ => ([], false) end),
    [USub; UNext 10].
  split; [|vm_compute; auto]. intros i h. rewrite last_last. reflexivity.
Qed.
Print Assumptions C18_depth_refuted.

(** *** C19: the behavior subject. The current value first (unless the subject failed), then
    what a publish subject would tell. *)
Theorem C19_behavior : forall A E (prog : behaviour A E) ord, some_order ord -> quiet prog ->
  forall v before after,
  history (outer_users prog ord (behavior v) (sj_new (behavior v)) (before ++ USub :: after))
    (subs_of before) =
  upto (fun h => snd (prog (subs_of before) h)) []
    ((if errored before then [] else [SN (last (pushed before) v)])
     ++ told_late (subs_of before) before after).
Proof. exact @behavior_quiet. Qed.
Print Assumptions C19_behavior.

Theorem C19_behavior_reentrant : forall A E (prog : behaviour A E) ord, some_order ord -> calm prog ->
  forall v us, let s := outer_users prog ord (behavior v) (sj_new (behavior v)) us in
  running s = true ->
  forall before after, sj_user s = before ++ USub :: after ->
  history s (subs_of before) =
  upto (fun h => snd (prog (subs_of before) h)) []
    ((if errored before then [] else [SN (last (pushed before) v)])
     ++ told_late (subs_of before) before after).
Proof. exact @behavior_calm. Qed.
Print Assumptions C19_behavior_reentrant.

Example C19_ex :
  let s := outer_users impatient backwards (behavior 7) (sj_new (behavior 7))
    [USub; UNext 1; USub; UNext 2; UNext 3; UOff 0; UNext 4; USub; UCmp; USub] in
  (history s 0, history s 1, history s 2, history s 3) =
  ([SN 7; SN 1; SN 2; SN 3; SU], [SN 1; SN 2], [SN 4; SC], [SN 4; SC]).
Proof. vm_compute. reflexivity. Qed.
Example C19_ex_reentrant :
  let s := outer_users lively forwards (behavior 0) (sj_new (behavior 0)) [USub; USub; UNext 30] in
  running s = true /\
  (history s 0, history s 1, history s 2) =
  ([SN 0; SN 30; SN 20; SN 25; SN 3; SC], [SN 0; SN 30; SN 20; SN 25; SN 3; SC],
   [SN 25; SN 3; SC]).
Proof. vm_compute. auto. Qed.

(** *** C20: the replay subject. The last [n] values pushed, or all if there are fewer. *)
Theorem C20_replay : forall A E (prog : behaviour A E) ord, some_order ord -> quiet prog ->
  forall n before after,
  history (outer_users prog ord (replay n) (sj_new (replay n)) (before ++ USub :: after))
    (subs_of before) =
  upto (fun h => snd (prog (subs_of before) h)) []
    ((if errored before then [] else map SN (lastn n (pushed before)))
     ++ told_late (subs_of before) before after).
Proof. exact @replay_quiet. Qed.
Print Assumptions C20_replay.

Theorem C20_last_values : forall A n (l : list A),
  (exists pre, l = pre ++ lastn n l) /\ length (lastn n l) = Nat.min n (length l).
Proof. exact lastn_char. Qed.
Print Assumptions C20_last_values.

Theorem C20_replay_reentrant : forall A E (prog : behaviour A E) ord, some_order ord -> calm prog ->
  forall n us, let s := outer_users prog ord (replay n) (sj_new (replay n)) us in
  running s = true ->
  forall before after, sj_user s = before ++ USub :: after ->
  history s (subs_of before) =
  upto (fun h => snd (prog (subs_of before) h)) []
    ((if errored before then [] else map SN (lastn n (pushed before)))
     ++ told_late (subs_of before) before after).
Proof. exact @replay_calm. Qed.
Print Assumptions C20_replay_reentrant.

Example C20_ex :
  let s := outer_users deaf backwards (replay 2) (sj_new (replay 2))
    [USub; UNext 1; USub; UNext 2; UNext 3; USub; UNext 4; UErr true; USub] in
  (history s 0, history s 1, history s 2, history s 3) =
  ([SN 1; SN 2; SN 3; SN 4; SE true], [SN 1; SN 2; SN 3; SN 4; SE true],
   [SN 2; SN 3; SN 4; SE true], [SE true]).
Proof. vm_compute. reflexivity. Qed.

(** *** C21: the async subject. [told_async] collects the values until the subject
    finishes: a completion delivers their combination and then completes; an error or an
    unsubscribe delivers no value. A late subscriber gets the same, except that an
    unsubscribed subject still gives out the value. *)
Theorem C21_async_partial : forall A E (prog : behaviour A E) ord, some_order ord ->
  forall f, quiet prog -> forall before after,
  history (outer_users prog ord (async f) (sj_new (async f)) (before ++ USub :: after))
    (subs_of before) =
  upto (fun h => snd (prog (subs_of before) h)) []
    (match finish_of before with
     | None => told_async f (subs_of before) (pushed before) after
     | Some (SE e) => [SE e]
     | Some x => map SN (reduced f (pushed before)) ++ [x]
     end).
Proof. exact @async_told. Qed.
Print Assumptions C21_async_partial.

(** Subscribers may call the subject while they are told something (except from their
    teardown). A completion is then two steps: the value is given to the subscribers, and later
    ([ADone]) they are told of the completion; what the subscribers do between the two comes
    between the two. So all calls, in the order they were made, can be interleaved with one
    [ADone] for each completion, each after its completion, so that every subscriber is told
    what that order says: [told_in] gives the combination of the values so far at every
    completion, and the end at the first [ADone], error or unsubscribe. *)
Theorem C21_async_reentrant_partial : forall A E (prog : behaviour A E) ord, some_order ord ->
  forall f, calm prog -> forall us,
  let s := outer_users prog ord (async f) (sj_new (async f)) us in
  running s = true ->
  exists m, users m = sj_user s /\ awaited 0 m = Some 0 /\
    forall m1 m2, m = m1 ++ AUser USub :: m2 ->
    history s (subs_of (users m1)) =
    upto (fun h => snd (prog (subs_of (users m1)) h)) []
      (match finish_in m1 with
       | None => told_in f (subs_of (users m1)) (pushed (users m1)) m2
       | Some (SE e) => [SE e]
       | Some x => map SN (reduced f (pushed (users m1))) ++ [x]
       end).
Proof. intros A E prog ord Ho f Hc us s Hr. exact (@async_calm A E f prog ord Ho us Hc Hr). Qed.
Print Assumptions C21_async_reentrant_partial.

(** subscriber 0 pushes a value, and subscribes another, when it is given the value *)
Definition meddler : behaviour nat bool := fun i h =>
  match i, h with 0, [SN _] => ([UNext 5; USub], false) | _, _ => ([], false) end.
Example C21_reentrant_ex :
  let s := outer_users meddler forwards (async Nat.add) (sj_new (async Nat.add))
    [USub; USub; UNext 1; UNext 2; UCmp; USub] in
  let m := [AUser USub; AUser USub; AUser (UNext 1); AUser (UNext 2); AUser UCmp; AUser (UNext 5);
            AUser USub; ADone; AUser USub] in
  running s = true /\ users m = sj_user s /\ awaited 0 m = Some 0 /\
  (history s 0, history s 1, history s 2, history s 3) =
  ([SN 3; SC], [SN 3; SC], [SC], [SN 8; SC]).
Proof. vm_compute. auto. Qed.

Example C21_ex :
  let s := outer_users deaf backwards (async Nat.add) (sj_new (async Nat.add))
    [USub; UNext 1; USub; UNext 2; UOff 0; UNext 3; UCmp; USub] in
  (history s 0, history s 1, history s 2) = ([SU], [SN 6; SC], [SN 6; SC]).
Proof. vm_compute. reflexivity. Qed.
Example C21_ex_error :
  let s := outer_users deaf backwards (async Nat.add) (sj_new (async Nat.add))
    [USub; UNext 1; UErr true; USub] in
  (history s 0, history s 1) = ([SE true], [SE true]).
Proof. vm_compute. reflexivity. Qed.

(** Unsubscribed without completion, the subject still gives its value to a late
    subscriber: async_subject.rs:138 asks for closed and not errored. *)
Theorem C21_unsubscribed_refuted : exists us : list (ucmd nat bool),
  finish_of us = Some SU /\
  history (outer_users deaf forwards (async Nat.add) (sj_new (async Nat.add)) us) 0 = [SN 3; SU].
Proof. exists [UNext 1; UNext 2; UUns; USub]. vm_compute. auto. Qed.
Print Assumptions C21_unsubscribed_refuted.

(** A value pushed after the completion is kept (async_subject.rs:86-96 does not ask whether the
    subject is closed): a late subscriber is given another value than those who were there. *)
Theorem C21_late_value_refuted : exists us : list (ucmd nat bool),
  let s := outer_users deaf forwards (async Nat.add) (sj_new (async Nat.add)) us in
  finish_of us = Some SC /\ history s 0 = [SN 1; SC] /\ history s 1 = [SN 3; SC].
Proof. exists [USub; UNext 1; UCmp; UNext 2; USub]. vm_compute. auto. Qed.
Print Assumptions C21_late_value_refuted.

(** A subscriber that completes the subject when it is given the value: everybody is given the
    value a second time (async_subject.rs:104-112). *)
Theorem C21_value_twice_refuted : exists (prog : behaviour nat bool) us, calm prog /\
  let s := outer_users prog forwards (async Nat.add) (sj_new (async Nat.add)) us in
  running s = true /\ history s 0 = [SN 3; SN 3; SC] /\ history s 1 = [SN 3; SN 3; SC].
Proof.
  exists (fun i h => match i, h with 0, [SN _] => ([UCmp], false) | _, _ => ([], false) end).
  exists [USub; USub; UNext 1; UNext 2; UCmp]. split.
  - intros [|i] [|[] [|y h]]; reflexivity.
  - vm_compute. auto.
Qed.
Print Assumptions C21_value_twice_refuted.

(** A subscriber that makes the subject error when it is given the value: the value was
    delivered, and an error follows. *)
Theorem C21_value_then_error_refuted : exists (prog : behaviour nat bool) us, calm prog /\
  let s := outer_users prog forwards (async Nat.add) (sj_new (async Nat.add)) us in
  running s = true /\ history s 0 = [SN 3; SE true].
Proof.
  exists (fun i h => match i, h with 0, [SN _] => ([UErr true], false) | _, _ => ([], false) end).
  exists [USub; UNext 1; UNext 2; UCmp]. split.
  - intros [|i] [|[] [|y h]]; reflexivity.
  - vm_compute. auto.
Qed.
Print Assumptions C21_value_then_error_refuted.

(** One that subscribes another when it is given the value: the new one is told of the
    completion only. *)
Theorem C21_missed_value_refuted : exists (prog : behaviour nat bool) us, calm prog /\
  let s := outer_users prog forwards (async Nat.add) (sj_new (async Nat.add)) us in
  running s = true /\ history s 0 = [SN 3; SC] /\ history s 1 = [SC].
Proof.
  exists (fun i h => match i, h with 0, [SN _] => ([USub], false) | _, _ => ([], false) end).
  exists [USub; UNext 1; UNext 2; UCmp]. split.
  - intros [|i] [|[] [|y h]]; reflexivity.
  - vm_compute. auto.
Qed.
Print Assumptions C21_missed_value_refuted.

(** *** C22: the views of a provenance subject. The head of the pipeline is the
    subscriber [subs_of before] of a behavior subject (C19 says what it is told). It
    passes on exactly the values of the wanted provenance and the error/complete. *)
Theorem C22_only_by_provenance : forall A Pv E (prog : behaviour (A * Pv) E) ord, some_order ord ->
  forall v before after, quiet prog -> (forall h, snd (prog (subs_of before) h) = false) ->
  forall eqb p,
  let told := history (outer_users prog ord (behavior v) (sj_new (behavior v))
                        (before ++ USub :: after)) (subs_of before) in
  obs (run (head (view_only eqb p)) (map feed told)) = flat_map (strip (fun q => eqb q p)) told.
Proof. exact @prov_only. Qed.
Print Assumptions C22_only_by_provenance.

Theorem C22_replay_then_by_provenance : forall A Pv E (prog : behaviour (A * Pv) E) ord, some_order ord ->
  forall v before after, quiet prog -> (forall h, snd (prog (subs_of before) h) = false) ->
  forall eqb p,
  let told := history (outer_users prog ord (behavior v) (sj_new (behavior v))
                        (before ++ USub :: after)) (subs_of before) in
  obs (run (head (view_replay_then eqb p)) (map feed told)) =
  match told with
  | SN x :: l => NNext (fst x) :: flat_map (strip (fun q => eqb q p)) l
  | _ => flat_map (strip (fun q => eqb q p)) told
  end.
Proof. exact @prov_replay_then. Qed.
Print Assumptions C22_replay_then_by_provenance.

Theorem C22_all : forall A Pv E (prog : behaviour (A * Pv) E) ord, some_order ord ->
  forall v before after, quiet prog -> (forall h, snd (prog (subs_of before) h) = false) ->
  let told := history (outer_users prog ord (behavior v) (sj_new (behavior v))
                        (before ++ USub :: after)) (subs_of before) in
  obs (run (head view_all) (map feed told)) = flat_map (strip (fun _ => true)) told.
Proof. exact @prov_all. Qed.
Print Assumptions C22_all.

Example C22_ex :
  let told := history (outer_users (fun _ _ => ([], false)) backwards (behavior (1, true)) (sj_new (behavior (1, true)))
    [UNext (2, false); USub; UNext (3, true); UNext (4, false); UNext (5, true); UErr 9; UNext (6, true)]) 0 in
  obs (run (head (view_only Bool.eqb true)) (map feed told)) = [NNext 3; NNext 5; NError 9] /\
  obs (run (head (view_replay_then Bool.eqb true)) (map feed told)) = [NNext 2; NNext 3; NNext 5; NError 9] /\
  obs (run (head (view_only Bool.eqb false)) (map feed told)) = [NNext 2; NNext 4; NError 9] /\
  obs (run (head view_all) (map feed told)) = [NNext 2; NNext 3; NNext 4; NNext 5; NError 9].
Proof. vm_compute. auto. Qed.

(** *** C47: a value pushed into a finished subject has no effect on anyone, now or later.
    True of the publish subject. *)
Theorem C47_finished_mute_partial : forall A E (prog : behaviour A E) ord, some_order ord -> quiet prog ->
  forall us1 us2 a i, finish_of us1 <> None ->
  history (outer_users prog ord plain (sj_new plain) (us1 ++ UNext a :: us2)) i =
  history (outer_users prog ord plain (sj_new plain) (us1 ++ us2)) i.
Proof. exact @finished_mute. Qed.
Print Assumptions C47_finished_mute_partial.

Example C47_ex : finish_of [USub; UNext 1; @UCmp nat bool] <> None.
Proof. discriminate. Qed.

(** False of the others: behavior_subject.rs:64-68, replay_subject.rs:65-69 and
    async_subject.rs:88-95 store the value before or without asking whether the subject is
    closed. A late subscriber of a completed subject gets a value that was pushed after the
    completion and that no earlier subscriber ever saw. *)
Theorem C47_finished_refuted : exists us : list (ucmd nat bool),
  us = [USub; UNext 1; UCmp; UNext 2; USub] /\
  (let s := outer_users deaf forwards (behavior 0) (sj_new (behavior 0)) us in
   history s 0 = [SN 0; SN 1; SC] /\ history s 1 = [SN 2; SC]) /\
  (let s := outer_users deaf forwards (replay 1) (sj_new (replay 1)) us in
   history s 0 = [SN 1; SC] /\ history s 1 = [SN 2; SC]) /\
  (let s := outer_users deaf forwards (async Nat.add) (sj_new (async Nat.add)) us in
   history s 0 = [SN 1; SC] /\ history s 1 = [SN 3; SC]).
Proof. eexists. split; [reflexivity|]. vm_compute. auto. Qed.
Print Assumptions C47_finished_refuted.
