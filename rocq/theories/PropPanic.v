(** Property C62: destinations that panic. See PanicModel.v for [hsteps] (clones of [Arc<Mutex>],
    [Arc<RwLock>] and [Weak<Mutex>]) and [ssteps] (SharedSubscriber); PanicSpec.v for [once]. *)
From Verif Require Import Base PanicModel PanicSpec PanicProofs.
Set Implicit Arguments.

(** A call that panics poisons the lock. *)
Theorem C62_poison : forall A E (boom : list (sig A E) -> bool) tboom h, ~ In HDrop h ->
  (l_poison (a_lock (hsteps boom tboom arcs0 h)) = true <-> 0 < a_panics (hsteps boom tboom arcs0 h)).
Proof. exact arc_poisoned. Qed.
Print Assumptions C62_poison.

(** From then on the observer is told nothing. *)
Theorem C62_silent : forall A E (boom : list (sig A E) -> bool) tboom h1 h2,
  l_poison (a_lock (hsteps boom tboom arcs0 h1)) = true ->
  d_told (l_dest (a_lock (hsteps boom tboom arcs0 (h1 ++ h2)))) = d_told (l_dest (a_lock (hsteps boom tboom arcs0 h1))).
Proof. exact arc_silent. Qed.
Print Assumptions C62_silent.

(** Whatever is called next on a clone closes it. *)
Theorem C62_closes : forall A E (boom : list (sig A E) -> bool) tboom h o x,
  l_poison (a_lock (hsteps boom tboom arcs0 h)) = true -> a_alive (hsteps boom tboom arcs0 h) = true ->
  (forall t, o = OAdd t -> tboom t = false) -> x = HArc o \/ x = HWeak o ->
  d_closed (l_dest (a_lock (hsteps boom tboom arcs0 (h ++ [x])))) = true.
Proof. exact arc_closes. Qed.
Print Assumptions C62_closes.

(** No teardown is executed twice, whatever panics. If only the observer panics, each is executed
    when it is closed, which it is after the last [Arc] was dropped. *)
Theorem C62_teardowns : forall A E (boom : list (sig A E) -> bool) tboom h,
  once tboom (added true h) (l_dest (a_lock (hsteps boom tboom arcs0 h))).
Proof. exact arc_once. Qed.
Print Assumptions C62_teardowns.
Theorem C62_dropped : forall A E (boom : list (sig A E) -> bool) tboom h, a_alive (hsteps boom tboom arcs0 h) = false ->
  d_closed (l_dest (a_lock (hsteps boom tboom arcs0 h))) = true.
Proof. exact arc_dropped. Qed.
Print Assumptions C62_dropped.

(** SharedSubscriber: nothing is told after a panic, and the teardowns as above. *)
Theorem C62_shared_silent : forall A E (boom : list (sig A E) -> bool) tboom h1 h2,
  l_poison (s_lock (ssteps boom tboom sh0 h1)) = true ->
  d_told (l_dest (s_lock (ssteps boom tboom sh0 (h1 ++ h2)))) = d_told (l_dest (s_lock (ssteps boom tboom sh0 h1))).
Proof. exact shared_silent. Qed.
Print Assumptions C62_shared_silent.
Theorem C62_shared_teardowns : forall A E (boom : list (sig A E) -> bool) tboom h,
  once tboom (sadded h) (l_dest (s_lock (ssteps boom tboom sh0 h))).
Proof. exact shared_once. Qed.
Print Assumptions C62_shared_teardowns.
Theorem C62_shared_dropped : forall A E (boom : list (sig A E) -> bool) tboom h, s_alive (ssteps boom tboom sh0 h) = false ->
  d_closed (l_dest (s_lock (ssteps boom tboom sh0 h))) = true.
Proof. exact shared_dropped. Qed.
Print Assumptions C62_shared_dropped.

(** But it is not closed by the next call: no call changes anything about the destination after
    a panic, until a teardown is added or the last clone is dropped. *)
Theorem C62_shared_stuck : forall A E (boom : list (sig A E) -> bool) tboom h1 h2,
  l_poison (s_lock (ssteps boom tboom sh0 h1)) = true -> calls_only h2 ->
  l_dest (s_lock (ssteps boom tboom sh0 (h1 ++ h2))) = l_dest (s_lock (ssteps boom tboom sh0 h1)).
Proof. exact shared_stuck. Qed.
Print Assumptions C62_shared_stuck.

(** An observer that panics when told 3, a teardown that panics. *)
Definition at3 (l : list (sig nat nat)) : bool := match rev l with GNext 3 :: _ => true | _ => false end.
Definition never (t : nat) : bool := false.
Definition five (t : nat) : bool := t =? 5.

Example C62_example :
  let r h := let s := hsteps at3 never arcs0 h in (d_told (l_dest (a_lock s)), d_closed (l_dest (a_lock s)), d_ran (l_dest (a_lock s)), d_fin (l_dest (a_lock s)), l_poison (a_lock s), a_panics s) in
  let h := [HArc (OAdd 1); HArc (OTell (GNext 1)); HWeak (OAdd 2); HWeak (OTell (GNext 3))] in
  r h = ([GNext 1; GNext 3], false, [], [1; 2], true, 1) /\
  r (h ++ [HArc (OTell (GNext 4))]) = ([GNext 1; GNext 3], true, [1; 2], [], true, 1) /\
  r (h ++ [HWeak (OAdd 7); HArc (OTell GDone)]) = ([GNext 1; GNext 3], true, [7; 1; 2], [], true, 1) /\
  r (h ++ [HDrop; HWeak (OAdd 8)]) = ([GNext 1; GNext 3], true, [1; 2; 8], [], true, 1).
Proof. vm_compute. auto. Qed.

Example C62_shared_example :
  let r h := let s := ssteps at3 never sh0 h in (d_told (l_dest (s_lock s)), d_closed (l_dest (s_lock s)), d_ran (l_dest (s_lock s)), s_queue s) in
  let h := [SOp (OAdd 1); SOp (OTell (GNext 1)); SOp (OTell (GNext 3))] in
  r [SOp (OAdd 1); SOp (OTell (GNext 1)); SOp (OTell GDone); SOp (OTell (GNext 2))] = ([GNext 1; GDone], true, [1], []) /\
  r (h ++ [SOp (OTell (GNext 4)); SOp (OTell GDone); SOp OUnsub]) = ([GNext 1; GNext 3], false, [], [NTell (GNext 4); NTell GDone; NUns]) /\
  r (h ++ [SOp OUnsub; SOp (OAdd 2)]) = ([GNext 1; GNext 3], true, [2; 1], [NUns]).
Proof. vm_compute. auto. Qed.

(** That unsubscribing a SharedSubscriber releases the resources does not hold if the observer
    has panicked, although it says that it is closed. *)
Theorem C62_shared_refuted : exists h, let s := ssteps at3 never sh0 h in
  In (SOp OUnsub) h /\ is_closed s = true /\ d_closed (l_dest (s_lock s)) = false /\ sadded h = [1] /\ d_ran (l_dest (s_lock s)) = [].
Proof.
  exists [SOp (OAdd 1); SOp (OTell (GNext 3)); SOp OUnsub]. split; [cbn; auto|]. vm_compute. auto.
Qed.
Print Assumptions C62_shared_refuted.

(** That dropping it then does not panic (in debug builds) does not hold either. *)
Theorem C62_dirty_refuted : exists h, s_dirty (ssteps at3 never sh0 (h ++ [SDrop])) = true.
Proof. exists [SOp (OTell (GNext 3)); SOp OUnsub]. reflexivity. Qed.
Print Assumptions C62_dirty_refuted.

(** That all teardowns are executed does not hold if one of them panics: the later ones are lost. *)
Theorem C62_lost_refuted : exists h, let s := hsteps at3 five arcs0 h in
  a_alive s = false /\ d_closed (l_dest (a_lock s)) = true /\ In 6 (added true h) /\ d_ran (l_dest (a_lock s)) = [4; 5] /\ d_fin (l_dest (a_lock s)) = [].
Proof.
  exists [HArc (OAdd 4); HArc (OAdd 5); HArc (OAdd 6); HArc OUnsub; HDrop]. vm_compute. auto 10.
Qed.
Print Assumptions C62_lost_refuted.
