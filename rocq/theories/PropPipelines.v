(** Properties C01-C13: subscribers, synchronous operators and their pipelines.

    [seen p cs] is what the observer at the end of pipeline [p] is told when the
    calls [cs] (any calls, in any order) are made on its head; [log p cs] also has
    the teardowns and callbacks; [is_closed p cs] is is_closed() of the head
    afterwards; [hist cs] is the history those calls amount to: the values up to the
    first error/complete/unsubscribe/drop, and how it ended. [ok p] says that
    [p] does not contain into_result, see C13. *)
From Verif Require Import Base SubscrModel SubscrProofs OpsModel OpsSpec OpsProofs OpsSem OpsMean OpsPipe.
Set Implicit Arguments.

Definition log {I E O F} (p : pipe I E O F) (cs : list (call I E)) : list (ev (notif O F)) := run (head p) cs.
Definition seen {I E O F} (p : pipe I E O F) cs : list (notif O F) := obs (log p cs).
Definition is_closed {I E O F} (p : pipe I E O F) (cs : list (call I E)) : bool := closed (head p) (final (head p) cs).
Definition hist {I E} (cs : list (call I E)) : trace I E := cut (signals cs).
Definition ok {I E O F} (p : pipe I E O F) : Prop := pipe_closes_on_error p = true.
Definition values {I E} (cs : list (call I E)) : list I := fst (hist cs).
Definition ending {I E} (cs : list (call I E)) : fin E := snd (hist cs).

(** a pipeline and an impolite history used in the examples *)
Definition demo : pipe nat bool nat bool :=
  PCons (OFinalize nat bool 7) (PCons (OMap bool S) (PCons (OFilter bool (fun a i => negb (a =? 3) || (i =? 0))) (PCons (OTake nat bool 2) PNil))).
Definition demo_calls : list (call nat bool) :=
  [CAdd [1]; CN (Nxt 1); CN (Nxt 2); CAdd [2]; CN (Nxt 4); CN (Nxt 9); CAdd [3]; CN (Err true); CN Cmp; CDrop; CN Uns].
Example demo_log : log demo demo_calls =
  [EObs (NNext 2); EObs (NNext 5); EObs NComplete; ETd 7; ETd 1; ETd 2; ETd 3].
Proof. vm_compute; reflexivity. Qed.
Example demo_ok : ok demo. Proof. reflexivity. Qed.

(** *** C01 *)
Theorem C01_grammar : forall I E O F (p : pipe I E O F) (cs : list (call I E)), grammar (seen p cs).
Proof. exact @head_grammar. Qed.
Print Assumptions C01_grammar.
Example C01_ex : seen demo demo_calls = [NNext 2; NNext 5; NComplete] /\ ~ grammar [NNext 2; NComplete; NNext (E := bool) 5].
Proof. split; [vm_compute; reflexivity|simpl; intuition discriminate]. Qed.

(** *** C02 *)
Theorem C02_closed_absorbing : forall I E O F (p : pipe I E O F) cs ds, ok p ->
  is_closed p cs = true ->
  is_closed p (cs ++ ds) = true /\ seen p (cs ++ ds) = seen p cs.
Proof.
  exact (fun I E O F p cs ds Hok => run_closed_app (head_lawful p Hok) cs ds).
Qed.
Print Assumptions C02_closed_absorbing.
Theorem C02_unsubscribe_no_effect : forall I E O F (p : pipe I E O F) cs c, ok p ->
  is_closed p cs = true -> c = CN Uns \/ c = CDrop -> log p (cs ++ [c]) = log p cs.
Proof. exact (fun I E O F p cs c Hok => @run_closed_mute _ _ _ _ _ (head_lawful p Hok) cs c). Qed.
Print Assumptions C02_unsubscribe_no_effect.
Theorem C02_add_runs_at_once : forall I E O F (p : pipe I E O F) cs t, ok p ->
  is_closed p cs = true -> log p (cs ++ [CAdd t]) = log p cs ++ map ETd t.
Proof. exact (fun I E O F p cs t Hok => run_closed_add (head_lawful p Hok) cs t). Qed.
Print Assumptions C02_add_runs_at_once.
Example C02_ex : is_closed demo (firstn 5 demo_calls) = true /\ is_closed demo (firstn 4 demo_calls) = false.
Proof. vm_compute; auto. Qed.

(** *** C03: the teardown part of the log is a function of the history: nothing
    while open; when closed, the teardowns of the pipeline's own finalize operators
    followed by the added ones, in order of insertion, each once; and no
    notification comes after a teardown has run. *)
Theorem C03_teardowns_once_in_order : forall I E O F (p : pipe I E O F) cs, ok p ->
  tds (log p cs) = if is_closed p cs then pipe_adds p ++ added cs else [].
Proof. exact (fun I E O F p cs Hok => run_tds (head_lawful p Hok) cs). Qed.
Print Assumptions C03_teardowns_once_in_order.
Theorem C03_notification_before_teardowns : forall I E O F (p : pipe I E O F) cs pre n post, ok p ->
  log p cs = pre ++ ETd n :: post -> obs post = [].
Proof. exact (fun I E O F p cs pre n post Hok => @ordered_split _ _ pre post n (run_ordered (head_lawful p Hok) cs)). Qed.
Print Assumptions C03_notification_before_teardowns.
Example C03_ex : tds (log demo demo_calls) = [7; 1; 2; 3] /\ tds (log demo (firstn 4 demo_calls)) = [].
Proof. vm_compute; auto. Qed.

(** *** C04 *)
Theorem C04_terminal_closes : forall I E O F (p : pipe I E O F) cs n, ok p ->
  (match n with Nxt _ => False | _ => True end) ->
  is_closed p (cs ++ [CN n]) = true /\
  tds (log p (cs ++ [CN n])) = pipe_adds p ++ added cs.
Proof. exact (fun I E O F p cs n Hok => terminal_closes (head_lawful p Hok) cs n). Qed.
Print Assumptions C04_terminal_closes.
Example C04_ex : is_closed demo (firstn 4 demo_calls ++ [CN (Err true)]) = true /\
  log demo (firstn 4 demo_calls ++ [CN (Err true)]) = [EObs (NNext 2); EObs (NError true); ETd 7; ETd 1; ETd 2].
Proof. vm_compute; auto. Qed.

(** *** C05 *)
Theorem C05_drop_releases : forall I E O F (p : pipe I E O F) cs, ok p ->
  seen p (cs ++ [CDrop]) = seen p cs /\
  tds (log p (cs ++ [CDrop])) = pipe_adds p ++ added cs /\
  (is_closed p cs = true -> log p (cs ++ [CDrop]) = log p cs).
Proof. exact (fun I E O F p cs Hok => drop_releases (head_lawful p Hok) cs). Qed.
Print Assumptions C05_drop_releases.
Example C05_ex : log demo (firstn 4 demo_calls ++ [CDrop]) = [EObs (NNext 2); ETd 7; ETd 1; ETd 2].
Proof. vm_compute; auto. Qed.

(** *** C06: in front of any further pipeline [p], for every call history *)
Section Stateless.
  Context {A B E G O F : Type}.
  Variable cs : list (call A E).
  Theorem C06_map : forall (f : A -> B) (p : pipe B E O F), ok p ->
    seen (PCons (OMap E f) p) cs = notifs_of (spec_pipe p (map f (values cs), ending cs)).
  Proof. exact (fun f p Hok => proj1 (head_any_history (PCons (OMap E f) p) cs Hok)). Qed.
  (** filter: the predicate gets the value and its position in the input *)
  Theorem C06_filter : forall (g : A -> nat -> bool) (p : pipe A E O F), ok p ->
    seen (PCons (OFilter E g) p) cs =
    notifs_of (spec_pipe p (map fst (filter (fun x => g (fst x) (snd x)) (combine (values cs) (seq 0 (length (values cs))))), ending cs)).
  Proof. exact (fun g p Hok => proj1 (head_any_history (PCons (OFilter E g) p) cs Hok)). Qed.
  Theorem C06_filter_map : forall (f : A -> option B) (p : pipe B E O F), ok p ->
    seen (PCons (OFilterMap f) p) cs =
    notifs_of (spec_pipe p (somes (map f (values cs)), ending cs)).
  Proof. exact (fun f p Hok => proj1 (head_any_history (PCons (OFilterMap f) p) cs Hok)). Qed.
  Theorem C06_map_into : forall (f : A -> B) (g : E -> G) (p : pipe B G O F), ok p ->
    seen (PCons (OMapInto f g) p) cs = notifs_of (spec_pipe p (map f (values cs), fin_map g (ending cs))).
  Proof. exact (fun f g p Hok => proj1 (head_any_history (PCons (OMapInto f g) p) cs Hok)). Qed.
  Theorem C06_map_error : forall (g : E -> G) (p : pipe A G O F), ok p ->
    seen (PCons (OMapError A g) p) cs = notifs_of (spec_pipe p (values cs, fin_map g (ending cs))).
  Proof. exact (fun g p Hok => proj1 (head_any_history (PCons (OMapError A g) p) cs Hok)). Qed.
  Theorem C06_enumerate : forall (p : pipe (A * nat) E O F), ok p ->
    seen (PCons (OEnumerate A E) p) cs =
    notifs_of (spec_pipe p (combine (values cs) (seq 0 (length (values cs))), ending cs)).
  Proof. exact (fun p Hok => proj1 (head_any_history (PCons (OEnumerate A E) p) cs Hok)). Qed.
  Theorem C06_identity_tap : forall (o : oper A E A E) (p : pipe A E O F), ok p ->
    (o = OIdentity A E \/ (exists f, o = OTapNext E f) \/ (exists fn fe fc, o = OTap fn fe fc) \/ o = OOptNone A E
     \/ (exists k, o = OFinalize A E k)) ->
    seen (PCons o p) cs = notifs_of (spec_pipe p (hist cs)).
  Proof. exact (identity_like cs). Qed.
End Stateless.
Print Assumptions C06_map.
Print Assumptions C06_filter.
Print Assumptions C06_filter_map.
Print Assumptions C06_map_into.
Print Assumptions C06_map_error.
Print Assumptions C06_enumerate.
Print Assumptions C06_identity_tap.
Theorem C06_lift_option : forall A E O F (p : pipe A E O F) (cs : list (call (option A) E)), ok p ->
  seen (PCons (OLiftOption A E) p) cs = notifs_of (spec_pipe p (somes (values cs), ending cs)).
Proof. exact (fun A E O F p cs Hok => proj1 (head_any_history (PCons (OLiftOption A E) p) cs Hok)). Qed.
Print Assumptions C06_lift_option.
(** the callbacks of tap_next/tap run once per notification, right before it *)
Theorem C06_tap_next_callback : forall A E (f : A -> nat) (t : trace A E),
  log (PCons (OTapNext E f) PNil) (calls t) =
  flat_map (fun a => [EEff (f a); EObs (NNext a)]) (fst t) ++
  match snd t with FErr e => [EObs (NError e)] | FDone => [EObs NComplete] | _ => [] end.
Proof. exact tap_next_log. Qed.
Print Assumptions C06_tap_next_callback.
Theorem C06_tap_callback : forall A E (fn : A -> nat) (fe : E -> nat) fc (t : trace A E),
  log (PCons (OTap fn fe fc) PNil) (calls t) =
  flat_map (fun a => [EEff (fn a); EObs (NNext a)]) (fst t) ++
  match snd t with
  | FErr e => [EEff (fe e); EObs (NError e)]
  | FDone => [EEff fc; EObs NComplete]
  | _ => []
  end.
Proof. exact tap_log. Qed.
Print Assumptions C06_tap_callback.
Example C06_ex : seen (PCons (OFilter bool (fun a i => Nat.even (a + i))) (PCons (OMap bool S) PNil))
   [CN (Nxt 4); CN (Nxt 4); CAdd [1]; CN (Nxt 3); CN (Nxt 5); CN (Err true); CN (Nxt 6)]
   = [NNext 5; NNext 6; NError true].
Proof. vm_compute; reflexivity. Qed.

(** *** C07 *)
Section Selecting.
  Context {A E O F : Type}.
  Variable cs : list (call A E).
  Theorem C07_take : forall n (p : pipe A E O F), ok p ->
    seen (PCons (OTake A E n) p) cs =
    notifs_of (spec_pipe p (if n <=? length (values cs) then (firstn n (values cs), FDone) else (values cs, ending cs))).
  Proof. exact (take_seen cs). Qed.
  Theorem C07_skip : forall n (p : pipe A E O F), ok p ->
    seen (PCons (OSkip A E n) p) cs = notifs_of (spec_pipe p (skipn n (values cs), ending cs)).
  Proof. exact (fun n p Hok => proj1 (head_any_history (PCons (OSkip A E n) p) cs Hok)). Qed.
  Theorem C07_first : forall (p : pipe A (first_error E) O F), ok p ->
    seen (PCons (OFirst A E) p) cs = notifs_of (spec_pipe p
      match values cs, ending cs with
      | a :: _, _ => ([a], FDone)
      | [], FDone => ([], FErr FirstNoNext)
      | [], f => ([], fin_map FirstUpstream f)
      end).
  Proof. exact (first_seen cs). Qed.
  Theorem C07_find : forall q (p : pipe A (find_error E) O F), ok p ->
    seen (PCons (OFind E q) p) cs = notifs_of (spec_pipe p
      match find q (values cs), ending cs with
      | Some a, _ => ([a], FDone)
      | None, FDone => ([], FErr (match values cs with [] => FindNoNext | _ => FindNoMatch end))
      | None, f => ([], fin_map FindUpstream f)
      end).
  Proof. exact (find_seen cs). Qed.
  Theorem C07_find_index : forall q (p : pipe nat (find_error E) O F), ok p ->
    seen (PCons (OFindIndex E q) p) cs = notifs_of (spec_pipe p
      match index_of q (values cs), ending cs with
      | Some i, _ => ([i], FDone)
      | None, FDone => ([], FErr (match values cs with [] => FindNoNext | _ => FindNoMatch end))
      | None, f => ([], fin_map FindUpstream f)
      end).
  Proof. exact (find_index_seen cs). Qed.
  Theorem C07_element_at : forall i d (p : pipe A (element_at_error E) O F), ok p ->
    seen (PCons (OElementAt E i d) p) cs = notifs_of (spec_pipe p
      match nth_error (values cs) i, ending cs, d with
      | Some a, _, _ => ([a], FDone)
      | None, FDone, Some d => ([d], FDone)
      | None, FDone, None => ([], FErr (IndexOutOfRange i (length (values cs))))
      | None, f, _ => ([], fin_map ElementAtUpstream f)
      end).
  Proof. exact (fun i d p Hok => proj1 (head_any_history (PCons (OElementAt E i d) p) cs Hok)). Qed.
  Theorem C07_is_empty : forall (p : pipe bool E O F), ok p ->
    seen (PCons (OIsEmpty A E) p) cs = notifs_of (spec_pipe p
      match values cs, ending cs with
      | _ :: _, _ => ([false], FDone)
      | [], FDone => ([true], FDone)
      | [], f => ([], f)
      end).
  Proof. exact (is_empty_seen cs). Qed.
End Selecting.
Print Assumptions C07_take.
Print Assumptions C07_skip.
Print Assumptions C07_first.
Print Assumptions C07_find.
Print Assumptions C07_find_index.
Print Assumptions C07_element_at.
Print Assumptions C07_is_empty.
Example C07_ex :
  seen (PCons (OTake nat bool 2) PNil) [CN (Nxt 4); CN (Nxt 5); CN (Nxt 6); CN (Err true)] = [NNext 4; NNext 5; NComplete] /\
  seen (PCons (OTake nat bool 0) PNil) [] = [NComplete] /\
  seen (PCons (OFindIndex bool (fun a => a =? 6)) PNil) [CN (Nxt 4); CN (Nxt 5); CN (Nxt 6)] = [NNext 2; NComplete] /\
  seen (PCons (OElementAt bool 3 None) PNil) [CN (Nxt 4); CN (Nxt 5); CN Cmp] = [NError (IndexOutOfRange 3 2)].
Proof. vm_compute; auto. Qed.

(** *** C08 *)
Section Accumulating.
  Context {A B E O F : Type}.
  Variable cs : list (call A E).
  Theorem C08_scan : forall (f : B -> A -> B) s (p : pipe B E O F), ok p ->
    seen (PCons (OScan E f s) p) cs = notifs_of (spec_pipe p
      (map (fun k => fold_left f (firstn k (values cs)) s) (seq 1 (length (values cs))), ending cs)).
  Proof. exact (fun f s p Hok => proj1 (head_any_history (PCons (OScan E f s) p) cs Hok)). Qed.
  Theorem C08_reduce : forall (f : B -> A -> B) s (p : pipe B E O F), ok p ->
    seen (PCons (OReduce E f s) p) cs = notifs_of (spec_pipe p
      (match ending cs with FDone => [fold_left f (values cs) s] | _ => [] end, ending cs)).
  Proof. exact (reduce_seen cs). Qed.
  Theorem C08_count : forall (p : pipe nat E O F), ok p ->
    seen (PCons (OCount A E) p) cs = notifs_of (spec_pipe p
      (match ending cs with FDone => [length (values cs)] | _ => [] end, ending cs)).
  Proof. exact (count_seen cs). Qed.
  Theorem C08_pairwise : forall (p : pipe (A * A) E O F), ok p ->
    seen (PCons (OPairwise A E) p) cs = notifs_of (spec_pipe p (combine (values cs) (tl (values cs)), ending cs)).
  Proof. exact (fun p Hok => proj1 (head_any_history (PCons (OPairwise A E) p) cs Hok)). Qed.
  (** buffer_count with size [S k] (NonZero): the buffers [bs], the rest only on completion *)
  Theorem C08_buffer_count : forall k (p : pipe (list A) E O F), ok p ->
    exists bs rest,
      seen (PCons (OBufferCount A E k) p) cs = notifs_of (spec_pipe p
        (bs ++ match ending cs, rest with FDone, a :: r => [a :: r] | _, _ => [] end, ending cs)) /\
      concat bs ++ rest = values cs /\
      (forall b, In b bs -> length b = S k) /\
      length rest < S k.
  Proof. exact (buffer_count_seen cs). Qed.
End Accumulating.
Print Assumptions C08_scan.
Print Assumptions C08_reduce.
Print Assumptions C08_count.
Print Assumptions C08_pairwise.
Print Assumptions C08_buffer_count.
Example C08_ex :
  seen (PCons (OBufferCount nat bool 1) PNil) [CN (Nxt 4); CN (Nxt 5); CN (Nxt 6); CN Cmp] = [NNext [4; 5]; NNext [6]; NComplete] /\
  seen (PCons (OBufferCount nat bool 1) PNil) [CN (Nxt 4); CN (Nxt 5); CN (Nxt 6); CN (Err true)] = [NNext [4; 5]; NError true] /\
  seen (PCons (OReduce bool Nat.add 10) PNil) [CN Cmp] = [NNext 10; NComplete] /\
  seen (PCons (OScan bool Nat.add 10) PNil) [CN (Nxt 1); CN (Nxt 2)] = [NNext 11; NNext 13].
Proof. vm_compute; auto. Qed.

(** *** C09 *)
Theorem C09_start_with : forall A E O F (a : A) (p : pipe A E O F) cs, ok p ->
  seen (PCons (OStartWith E a) p) cs = notifs_of (spec_pipe p (a :: values cs, ending cs)).
Proof. exact (fun A E O F a p cs Hok => proj1 (head_any_history (PCons (OStartWith E a) p) cs Hok)). Qed.
Print Assumptions C09_start_with.
Theorem C09_end_with : forall A E O F (a : A) (p : pipe A E O F) cs, ok p ->
  seen (PCons (OEndWith E a) p) cs =
  notifs_of (spec_pipe p (values cs ++ match ending cs with FDone => [a] | _ => [] end, ending cs)).
Proof. exact (fun A E O F a p cs Hok => proj1 (head_any_history (PCons (OEndWith E a) p) cs Hok)). Qed.
Print Assumptions C09_end_with.
(** signals sent by on_subscribe / on_next callbacks come in place *)
Theorem C09_on_subscribe : forall A E O F l (p : pipe A E O F) cs, ok p ->
  seen (PCons (OOnSubscribe l) p) cs = notifs_of (spec_pipe p (cut (l ++ signals cs))).
Proof. exact on_subscribe_seen. Qed.
Print Assumptions C09_on_subscribe.
Example C09_ex :
  seen (PCons (OStartWith bool 9) PNil) [] = [NNext 9] /\
  seen (PCons (OEndWith bool 9) PNil) [CN (Nxt 1); CN (Err true)] = [NNext 1; NError true] /\
  seen (PCons (OEndWith bool 9) PNil) [CN (Nxt 1); CN Cmp] = [NNext 1; NNext 9; NComplete].
Proof. vm_compute; auto. Qed.

(** *** C10 *)
Theorem C10_dematerialize_materialize : forall A E O F (p : pipe A E O F) cs, ok p ->
  seen (PCons (OMaterialize A E) (PCons (ODematerialize A E) p)) cs = seen p cs.
Proof. exact mat_demat_seen. Qed.
Print Assumptions C10_dematerialize_materialize.
Theorem C10_materialize : forall A E cs,
  seen (PCons (OMaterialize A E) PNil) cs =
  map NNext (notifs_of (hist cs)) ++ match ending cs with FErr _ | FDone => [NComplete] | _ => [] end.
Proof. exact materialize_seen. Qed.
Print Assumptions C10_materialize.
(** a dematerialised stream ends at the first terminal notification in it *)
Theorem C10_dematerialize_ends : forall A E O F (p : pipe A E O F) l rest (n : notif A E) cs, ok p ->
  (n = NComplete \/ exists e, n = NError e) ->
  signals cs = map (fun a => Nxt (NNext a)) l ++ Nxt n :: rest ->
  seen (PCons (ODematerialize A E) p) cs =
  notifs_of (spec_pipe p (l, match n with NError e => FErr e | _ => FDone end)).
Proof. exact demat_ends. Qed.
Print Assumptions C10_dematerialize_ends.
(** lift_result after into_result gives the source back, for every source that
    stops at its terminal signal ([calls t]) *)
Theorem C10_lift_into_result : forall A E O F (p : pipe A E O F) (t : trace A E), ok p ->
  seen (PCons (OIntoResult A E) (PCons (OLiftResult A E) p)) (calls t) = seen p (calls t).
Proof. exact into_lift_seen. Qed.
Print Assumptions C10_lift_into_result.
Example C10_ex :
  seen (PCons (OMaterialize nat bool) PNil) [CN (Nxt 1); CN (Err true); CN (Nxt 3)] =
    [NNext (NNext 1); NNext (NError true); NComplete] /\
  seen (PCons (OIntoResult nat bool) (PCons (OLiftResult nat bool) PNil)) [CN (Nxt 1); CN (Err true)] = [NNext 1; NError true].
Proof. vm_compute; auto. Qed.

(** *** C11 *)
Theorem C11_pipeline_composes : forall I E O F (p : pipe I E O F) cs, ok p ->
  seen p cs = notifs_of (spec_pipe p (hist cs)) /\
  is_closed p cs = match snd (spec_pipe p (hist cs)) with FOpen => false | _ => true end.
Proof. exact (fun I E O F p cs Hok => head_any_history p cs Hok). Qed.
Print Assumptions C11_pipeline_composes.
Theorem C11_composite : forall I E M G N H O F (a : oper I E M G) (b : oper M G N H) (p : pipe N H O F) cs,
  ok (PCons a (PCons b p)) -> seen (PCons (OComposite a b) p) cs = seen (PCons a (PCons b p)) cs.
Proof. exact composite_seen. Qed.
Print Assumptions C11_composite.
Example C11_ex : spec_pipe demo (hist demo_calls) = ([2; 5], FDone).
Proof. vm_compute; reflexivity. Qed.

(** *** C12: whatever the downstream subscriber [D] is, if the downstream inside the
    state of the pipeline is closed then so is the head *)
Theorem C12_closed_with_downstream : forall X I E O F (p : pipe I E O F) (D : subscriber X O F) s,
  closed D (down p D s) = true -> closed (pipe_sub p D) s = true.
Proof. exact down_closed. Qed.
Print Assumptions C12_closed_with_downstream.
(** and then nothing is visible any more, for a downstream that keeps the contracts *)
Theorem C12_then_silent : forall X I E O F (p : pipe I E O F) (D : subscriber X O F) adds cs ds,
  ok p -> lawful D adds ->
  let S := pipe_sub p D in
  closed D (down p D (final S cs)) = true ->
  closed S (final S (cs ++ ds)) = true /\ obs (run S (cs ++ ds)) = obs (run S cs).
Proof. exact @down_silent. Qed.
Print Assumptions C12_then_silent.
Example C12_ex :
  let D := until_sink (F := bool) (fun a => 5 <=? a) in
  let p := PCons (OMap bool S) (PCons (OScan bool Nat.add 0) PNil) in
  let S := pipe_sub p D in
  closed S (final S [CN (Nxt 1)]) = false /\
  closed D (down p D (final S [CN (Nxt 1); CN (Nxt 2)])) = true /\
  obs (run S [CN (Nxt 1); CN (Nxt 2); CN (Nxt 3); CN Cmp]) = [NNext 2; NNext 5].
Proof. vm_compute; auto. Qed.
Definition C12_ex_lawful := fun O F stop => @until_sink_lawful O F stop.

(** *** C13: into_result does not close on error, and lets values through after it *)
Theorem C13_into_result_closes_refuted :
  exists cs : list (call nat bool), ending cs = FErr true /\
    is_closed (PCons (OIntoResult nat bool) PNil) cs = false /\
    seen (PCons (OIntoResult nat bool) PNil) cs = [NNext (inl 1); NNext (inr true); NNext (inl 2)].
Proof. exact into_result_open_after_error. Qed.
Print Assumptions C13_into_result_closes_refuted.
(** what it does deliver, for sources that stop at their terminal signal *)
Theorem C13_into_result_partial : forall A E O F (p : pipe (A + E) Empty_set O F) (t : trace A E), ok p ->
  seen (PCons (OIntoResult A E) p) (calls t) = notifs_of (spec_pipe p
    (map inl (fst t) ++ match snd t with FErr e => [inr e] | _ => [] end,
     match snd t with FErr _ => FOpen | FOpen => FOpen | FDone => FDone | FUnsub => FUnsub end)).
Proof. exact (fun A E O F p t Hok => into_result_head p t Hok). Qed.
Print Assumptions C13_into_result_partial.
(** consequence for stacks: take before into_result reports closed and still emits *)
Theorem C13_closed_but_emitting_refuted :
  exists cs ds : list (call nat bool),
    let p := PCons (OTake nat bool 3) (PCons (OIntoResult nat bool) PNil) in
    is_closed p cs = true /\ seen p (cs ++ ds) <> seen p cs.
Proof. exact take_into_result_emits. Qed.
Print Assumptions C13_closed_but_emitting_refuted.
