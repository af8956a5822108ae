(** Property C65: the helpers the tests of the repository are written with report what happened.
    [collect l] is the collector after the notifications [l]; [eqb] is the equality of
    notifications. *)
From Verif Require Import Base SubscrModel OpsModel TestModel TestProofs TestSim.
Set Implicit Arguments.

(** The collector keeps everything in order; it is split behind the first unsubscription. *)
Theorem C65_collector : forall A E (l : list (ncall A E)),
  all_notes (collect l) = l /\ c_len (collect l) = length l /\
  (forall n, try_nth (collect l) n = nth_error l n) /\
  (forall k, count_all k (collect l) = length (filter k l)) /\
  count_before is_uns (collect l) <= 1 /\
  (nothing_after_closed (collect l) = true <-> forall p q, l = p ++ Uns :: q -> q = []).
Proof.
  exact (fun A E l => conj (all_collected l) (conj (len_collected l) (conj (try_nth_collected l)
    (conj (fun k => count_collected k l) (conj (one_unsubscribe l) (nothing_after l)))))).
Qed.
Print Assumptions C65_collector.

(** What the assertions pass for. *)
Theorem C65_assertions : forall A E (eqb : ncall A E -> ncall A E -> bool), (forall x y, eqb x y = true <-> x = y) ->
  forall l,
  (forall i xs more, assert_notifications eqb (collect l) i xs more = true <->
     firstn (length xs) (skipn i l) = xs /\ (more = true -> length l <= i + length xs)) /\
  (forall x, assert_last eqb (collect l) x = true <-> exists p, l = p ++ [x]) /\
  (forall n, assert_nth_is_last (collect l) n = true <-> length l = S n) /\
  (forall n x, assert_nth eqb (collect l) n x = true <-> nth_error l n = Some x).
Proof.
  exact (fun A E eqb H l => conj (assert_notifications_iff eqb H l) (conj (assert_last_iff eqb H l)
    (conj (assert_nth_is_last_iff l) (assert_nth_iff eqb H l)))).
Qed.
Print Assumptions C65_assertions.

Theorem C65_terminal : forall A E (eqb : ncall A E -> ncall A E -> bool), (forall x y, eqb x y = true <-> x = y) ->
  forall n l closed up down sub,
  assert_terminal eqb n l closed up down sub = true <->
  is_next n = false /\ (exists p, l = p ++ [n]) /\ closed = true /\ up = true /\ down = true /\ sub = true.
Proof. exact assert_terminal_iff. Qed.
Print Assumptions C65_terminal.

(** The mock observer records every call, also after it is closed; a drop counts as an
    unsubscription if it is open ([told]). Its teardowns are executed once each, in order, with the
    first call that ends it. *)
Theorem C65_mock : forall A E (cs : list (call A E)),
  seen (run (mock A E) cs) = told false cs /\
  closed (mock A E) (final (mock A E) cs) = existsb (@ends A E) cs /\
  torn (run (mock A E) cs) = (if existsb (@ends A E) cs then added cs else []).
Proof. exact (fun A E cs => conj (proj1 (mock_runs cs)) (conj (proj2 (mock_runs cs)) (mock_teardowns cs))). Qed.
Print Assumptions C65_mock.

(** The harness' destination takes the given number of values and completes with the last. *)
Theorem C65_takes : forall A E n (vs : list A),
  seen (run (denote (t_harness (E:=E) (Some n)) (mock A E)) (map (fun a => CN (Nxt a)) vs)) =
    map (fun a => Nxt a) (firstn n vs) ++ (if (0 <? n) && (n <=? length vs) then [Cmp] else []).
Proof. exact harness_takes. Qed.
Print Assumptions C65_takes.

(** Testing with a mock is testing the real thing: for every pipeline and every history of calls, what
    happens with a real destination is what the mock has recorded, without what it has been told
    after the first terminal notification or unsubscription ([cut]). Teardowns and callbacks are the
    same, and so is [is_closed]. *)
Theorem C65_mock_for_real : forall I F O G (p : pipe I F O G) cs,
  run (head p) cs = fst (cut false (run (pipe_sub p (mock O G)) cs)) /\
  closed (head p) (SubscrModel.final (head p) cs) = closed (pipe_sub p (mock O G)) (SubscrModel.final (pipe_sub p (mock O G)) cs).
Proof. exact mock_for_real. Qed.
Print Assumptions C65_mock_for_real.

Definition neqb (x y : ncall nat nat) : bool :=
  match x, y with Nxt a, Nxt b => a =? b | Err a, Err b => a =? b | Cmp, Cmp | Uns, Uns => true | _, _ => false end.
Example C65_equality : forall x y, neqb x y = true <-> x = y.
Proof. intros [a|a| |] [b|b| |]; cbn; split; intros H; try discriminate; auto; try (apply Nat.eqb_eq in H; congruence); try (inversion H; apply Nat.eqb_refl). Qed.
Example C65_example :
  seen (run (pipe_sub (PCons (@OTake nat nat 1) PNil) (mock nat nat)) [CAdd [5]; CN (Nxt 1); CN (Nxt 2); CN Cmp; CDrop]) = [Nxt 1; Cmp; Cmp] /\
  run (head (PCons (@OTake nat nat 1) PNil)) [CAdd [5]; CN (Nxt 1); CN (Nxt 2); CN Cmp; CDrop] = [EObs (NNext 1); EObs NComplete; ETd 5] /\
  assert_notifications neqb (collect [Nxt 1; Cmp; Uns; Nxt 2]) 1 [Cmp; Uns; Nxt 2] true = true /\
  nothing_after_closed (collect [@Nxt nat nat 1; Cmp; Uns; Nxt 2]) = false.
Proof. vm_compute. auto. Qed.

(** What they do not see. A value after the completion goes unnoticed by
    [nothing_happened_after_closed], which only knows of unsubscriptions; the final assertion of the
    harness passes though there were a value and a second completion after the completion; a
    tracked teardown that is executed twice looks like one that is executed once; and asking for
    a round before the one before it panics. *)
Example C65_after_completion :
  nothing_after_closed (collect (seen (run (mock nat nat) [CN Cmp; CN (Nxt 1)]))) = true /\
  assert_terminal neqb Cmp (seen (run (mock nat nat) [CN Cmp; CN (Nxt 1); CN Cmp])) true true true true = true /\
  (forall w : list (ev nat), was_torn_down 3 (ETd 3 :: ETd 3 :: w) = was_torn_down 3 (ETd 3 :: w)) /\
  (forall fresh, get_round [] fresh 1 = None).
Proof. vm_compute. auto. Qed.
