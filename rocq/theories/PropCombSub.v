(** Property C67: how zip, combine_latest, combine_changes and join subscribe to their sources, hold
    them and let go of them.

    [b1] and [b2] say what the sources do while they are subscribed to, [l] what happens afterwards:
    sources call or drop their subscribers, the destination makes sources call or unsubscribes while
    it is told something, the caller unsubscribes or drops the subscription it got. [c_heard] are
    the calls that the combining subscriber got, [c_w] is the destination, [c_offs] are the
    subscriptions of the sources in the order in which they were let go (unsubscribed or dropped),
    [c_alive] says which source still has its subscriber. *)
From Verif Require Import Base SubscrModel LifeModel LifeProofs CombModel CombSpec CombSubModel CombSubSpec CombSubProofs.
Set Implicit Arguments.

(** Sources that keep the contract cause no panic: not that of the depth of the queue, nor those of
    the states of the sources. *)
Theorem C67_no_panic : forall A1 A2 E B St down looks answer next start, @combining A1 A2 E B St down looks answer next start ->
  forall b1 b2 l, lawful_sources b1 b2 l -> exists c, combined down next start b1 b2 l = Some c.
Proof. exact no_panic. Qed.
Print Assumptions C67_no_panic.

(** The calls of a source reach the combining subscriber in order and none is lost until the
    source is let go; after that there are only unsubscriptions. *)
Theorem C67_heard : forall A1 A2 E B St down looks answer next start, @combining A1 A2 E B St down looks answer next start ->
  forall b1 b2 l c, lawful_sources b1 b2 l -> combined down next start b1 b2 l = Some c ->
  forall i, exists n m, of i (map snd (c_heard c)) = firstn n (called b1 b2 (ev_calls l) i) ++ repeat (uns_of A1 A2 E i) m /\
    (c_alive c i = true -> ~ In i (c_offs c) -> of i (map snd (c_heard c)) = called b1 b2 (ev_calls l) i).
Proof. exact heard_well. Qed.
Print Assumptions C67_heard.

(** The destination is told what C39 to C41 say for these calls, and in the end at most one
    unsubscription more, if it is dropped while it is open. *)
Theorem C67_told : forall A1 A2 E B St down looks answer next start, @combining A1 A2 E B St down looks answer next start ->
  forall b1 b2 l c, lawful_sources b1 b2 l -> combined down next start b1 b2 l = Some c ->
  let w := answers down looks answer [] t_new (c_heard c) in
  c_w c = w \/ (t_shut w = false /\ c_gone c = true /\ c_w c = tell down Uns w).
Proof. exact told_well. Qed.
Print Assumptions C67_told.

(** While the destination is open no subscription is let go, but those that were returned closed;
    and it is not dropped, as some source has its subscriber. *)
Theorem C67_held : forall A1 A2 E B St down looks answer next start, @combining A1 A2 E B St down looks answer next start ->
  forall b1 b2 l c, lawful_sources b1 b2 l -> combined down next start b1 b2 l = Some c ->
  t_shut (c_w c) = false ->
  c_offs c = at_once b1 b2 /\ c_gone c = false /\ (c_alive c One = true \/ c_alive c Two = true).
Proof. exact held_well. Qed.
Print Assumptions C67_held.

(** Once the destination is closed, by whom ever, every subscription was let go exactly once, no
    source has its subscriber any more and the destination is freed. *)
Theorem C67_let_go : forall A1 A2 E B St down looks answer next start, @combining A1 A2 E B St down looks answer next start ->
  forall b1 b2 l c, lawful_sources b1 b2 l -> combined down next start b1 b2 l = Some c ->
  t_shut (c_w c) = true ->
  c_gone c = true /\ c_held c = [] /\ forall i, times i (c_offs c) = 1 /\ c_alive c i = false.
Proof. exact let_go_well. Qed.
Print Assumptions C67_let_go.

(** The caller can unsubscribe at any time. A destination that was open is told so, once. *)
Theorem C67_unsubscribe : forall A1 A2 E B St down looks answer next start, @combining A1 A2 E B St down looks answer next start ->
  forall b1 b2 l, lawful_sources b1 b2 l -> ~ In CForget l ->
  exists c c', combined down next start b1 b2 l = Some c /\ combined down next start b1 b2 (l ++ [CUnsub]) = Some c' /\
    t_shut (c_w c') = true /\ t_out (c_w c') = t_out (c_w c) ++ (if t_shut (c_w c) then [] else [Uns]).
Proof. exact unsubscribe_well. Qed.
Print Assumptions C67_unsubscribe.

(** If the caller drops the subscription nothing is let go. *)
Theorem C67_drop : forall A1 A2 E B St down looks answer next start, @combining A1 A2 E B St down looks answer next start ->
  forall b1 b2 l c, lawful_sources b1 b2 l -> combined down next start b1 b2 l = Some c ->
  combined down next start b1 b2 (l ++ [CForget]) = Some (with_handle false c).
Proof. exact drop_well. Qed.
Print Assumptions C67_drop.

(** *** Examples *)
Definition view {A1 A2 E B St} (o : option (cobs A1 A2 E B St)) :=
  match o with
  | Some c => Some (map snd (c_heard c), t_out (c_w c), c_offs c, (c_alive c One, c_alive c Two), c_gone c)
  | None => None
  end.
Definition say (e : either2 nat nat nat) : cevent nat nat nat := CEmit e [] false.
Definition quiet : source nat nat nat := mkB [] false false.
Definition latest_of_both (b1 b2 : source nat nat nat) l :=
  view (combined (fun _ => false) (combine_latest_next (E := nat) (fun _ => false)) (ns_new, ns_new) b1 b2 l).
Definition zip_of_both (b1 b2 : source nat nat nat) l :=
  view (combined (fun _ => false) (zip_next (E := nat) (fun _ => false)) (nq_new nat nat 5 DropOldest, nq_new nat nat 5 DropOldest) b1 b2 l).

Example C67_lawful : lawful_sources (mkB [(On1 (Nxt 1), [], false)] false false) quiet
  [say (On2 (Nxt 2)); CUnsub; say (On1 (Nxt 3))].
Proof. vm_compute. auto. Qed.
(** What comes after the unsubscription is not heard. *)
Example C67_example : latest_of_both (mkB [(On1 (Nxt 1), [], false)] false false) quiet
    [say (On2 (Nxt 2)); CUnsub; say (On1 (Nxt 3))]
  = Some ([On1 (Nxt 1); On2 (Nxt 2); On1 Uns; On1 Uns; On2 Uns],
          [Nxt (1, 2); Uns], [One; Two], (false, false), true).
Proof. reflexivity. Qed.
(** zip does not pass the unsubscriptions on while a value is left over; it is the drop that tells
    the destination. *)
Example C67_left_over : zip_of_both quiet quiet [say (On1 (Nxt 1)); CUnsub]
  = Some ([On1 (Nxt 1); On1 Uns; On1 Uns; On2 Uns; On2 Uns], [Uns], [One; Two], (false, false), true).
Proof. reflexivity. Qed.
(** The first source ends the result while it is subscribed to: the second is subscribed to all
    the same. *)
Example C67_subscribed_in_vain : latest_of_both (mkB [(On1 (Err 7), [], false)] true true) (mkB [(On2 (Nxt 2), [], false)] false false) []
  = Some ([On1 (Err 7); On2 (Nxt 2); On2 Uns], [Err 7], [One; Two], (false, false), true).
Proof. reflexivity. Qed.
(** The destination unsubscribes while it is told something, a source is let go during its own
    call, and the other makes a last call before it is. *)
Example C67_inside : latest_of_both quiet quiet
    [say (On1 (Nxt 1)); CEmit (On2 (Nxt 2)) [INCall (On1 (Nxt 3)); INUnsub; INCall (On1 (Nxt 4))] true; say (On2 (Nxt 5))]
  = Some ([On1 (Nxt 1); On2 (Nxt 2); On1 (Nxt 3); On1 Uns; On1 Uns; On2 Uns],
          [Nxt (1, 2); Nxt (3, 2); Uns], [One; Two], (false, false), true).
Proof. reflexivity. Qed.
(** A dropped subscription: the sources go on, and the end still lets them go. *)
Example C67_dropped : latest_of_both quiet quiet [say (On1 (Nxt 1)); CForget; CUnsub; say (On2 (Nxt 2)); say (On1 (Err 7))]
  = Some ([On1 (Nxt 1); On2 (Nxt 2); On1 (Err 7); On2 Uns; On2 Uns], [Nxt (1, 2); Err 7], [One; Two], (false, false), true).
Proof. reflexivity. Qed.
(** The second source alone keeps it all when the first has dropped its subscriber. *)
Example C67_one_left : zip_of_both quiet quiet [say (On1 (Nxt 1)); CDrop One; say (On2 (Nxt 2))]
  = Some ([On1 (Nxt 1); On1 Uns; On2 (Nxt 2)], [Nxt (1, 2); Uns], [One; Two], (false, false), true).
Proof. reflexivity. Qed.
