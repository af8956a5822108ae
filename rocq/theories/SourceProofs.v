(** Source observables: proofs. *)
From Verif Require Import Base SubscrModel SubscrProofs OpsModel OpsSpec OpsProofs OpsSem OpsMean OpsPipe PropPipelines SourceModel.
Set Implicit Arguments.

(** the teardowns a list of calls on a subscription adds *)
Fixpoint hadds (cs : list hcall) : list nat :=
  match cs with
  | [] => []
  | HAdd t :: r => t ++ hadds r
  | _ :: r => hadds r
  end.

(** The calls a producer makes when is_closed() is answered by [isc] of the calls made
    so far. *)
Fixpoint obey {I E} (isc : list (call I E) -> bool) (p : prog I E) (past : list (call I E)) : list (call I E) :=
  match p with
  | PStop => past
  | PNotify n k => obey isc k (past ++ [CN n])
  | PAdd t k => obey isc k (past ++ [CAdd t])
  | PAsk k => obey isc (k (isc past)) past
  end.

Definition nexts {I E} (l : list I) : list (call I E) := map (fun v => CN (Nxt v)) l.

Lemma hadds_app a b : hadds (a ++ b) = hadds a ++ hadds b.
Proof. induction a as [|[] a IH]; simpl; rewrite ?IH, ?app_assoc; auto. Qed.

Lemma signals_nexts {I E} (l : list I) r : signals (@nexts I E l ++ r) = map Nxt l ++ signals r.
Proof. induction l; simpl; congruence. Qed.
Lemma cut_nexts {I E} (l : list I) (r : list (ncall I E)) : cut (map Nxt l ++ r) = (l ++ fst (cut r), snd (cut r)).
Proof. induction l as [|v l IH]; simpl; [destruct (cut r); auto|rewrite IH; auto]. Qed.
Lemma nexts_app {I E} (a b : list I) : @nexts I E (a ++ b) = nexts a ++ nexts b.
Proof. apply map_app. Qed.
Lemma added_nexts {I E} (l : list I) r : added (@nexts I E l ++ r) = added r.
Proof. induction l; simpl; auto. Qed.

Lemma nth_error_same A (a b : list A) : (forall j, nth_error a j = nth_error b j) -> a = b.
Proof.
  revert b; induction a as [|x a IH]; intros [|y b] H; auto.
  - discriminate (H 0).
  - discriminate (H 0).
  - injection (H 0) as ->. f_equal. apply IH. intros j; exact (H (S j)).
Qed.
Lemma nth_error_first A (l : list A) n j : j < n -> nth_error (firstn n l) j = nth_error l j.
Proof.
  revert n j; induction l as [|x l IH]; intros [|n] [|j] H; simpl; try lia; auto.
  apply IH; lia.
Qed.

Section Src.
  Context {X I E : Type}.
  Variable S : subscriber X I E.
  Variable adds : list nat.
  Hypothesis L : lawful S adds.

  Definition reached (cs : list (call I E)) (s : st S) (w : list (ev X)) : Prop := run_from S (s0 S) cs = (s, w).

  Lemma reached_nil : reached [] (s0 S) [].
  Proof. reflexivity. Qed.
  Lemma reached_step cs s w c : reached cs s w ->
    reached (cs ++ [c]) (fst (step S s c)) (w ++ snd (step S s c)).
  Proof.
    unfold reached; intros H. rewrite run_from_app, H; simpl.
    destruct (step S s c); simpl. rewrite app_nil_r; auto.
  Qed.
  Lemma reached_final cs s w : reached cs s w -> final S cs = s.
  Proof. unfold reached, final; intros H; rewrite H; auto. Qed.
  Lemma reached_run cs s w : reached cs s w -> w0 S ++ w = run S cs.
  Proof. unfold reached, run; intros H; rewrite H; auto. Qed.
  Lemma reached_inv cs s w : reached cs s w -> l_inv L s.
  Proof. intros H; rewrite <- (reached_final H). apply (final_inv L). Qed.

  (** [InertSubscription::new]: what is visible is that of the calls before, and
      everything is released. *)
  Lemma inert_ok cs s w : reached cs s w ->
    let r := w0 S ++ w ++ snd (inert S s) in
    obs r = obs (run S cs) /\ tds r = adds ++ added cs /\ ordered r /\
    (closed S s = true -> r = run S cs).
  Proof.
    intros H. simpl. unfold inert; simpl.
    destruct (closed S s) eqn:Ec.
    - pose proof (reached_step CDrop H) as H1. rewrite (reached_run H1).
      destruct (drop_releases L cs) as (D1 & D2 & D3).
      repeat split; auto. apply (run_ordered L).
      intros _. apply D3. rewrite (reached_final H); auto.
    - unfold step2. pose proof (reached_step (CN Uns) H) as H1.
      destruct (step S s (CN Uns)) as [s1 w1] eqn:E1; simpl in *.
      pose proof (reached_step CDrop H1) as H2.
      destruct (step S s1 CDrop) as [s2 w2] eqn:E2; simpl in *.
      rewrite <- (app_assoc w) in H2.
      rewrite (reached_run H2).
      destruct (drop_releases L (cs ++ [CN Uns])) as (D1 & D2 & D3).
      destruct (terminal_closes L cs Uns Logic.I) as (T1 & T2).
      repeat split; try discriminate.
      + rewrite D1, run_app, run_one, obs_app, (l_quiet L _ (CN Uns) (final_inv L cs) eq_refl), app_nil_r; auto.
      + rewrite D2, added_snoc by reflexivity. reflexivity.
      + apply (run_ordered L).
  Qed.

  (** the loop of iter *)
  Lemma iter_loop_some fuel f k : forall s n s' w, iter_loop S fuel f k s = Some (n, s', w) ->
    exists vs,
      run_from S s (nexts vs) = (s', w) /\
      (forall j, j < length vs -> f (k + j) = nth_error vs j) /\
      (forall j, j < length vs -> closed S (fst (run_from S s (nexts (firstn j vs)))) = false) /\
      ((f (k + length vs) = None /\ n = k + length vs) \/
       (f (k + length vs) <> None /\ closed S s' = true /\ n = Datatypes.S (k + length vs))).
  Proof.
    revert k; induction fuel as [|fuel IH]; simpl; intros k s n s' w H; [discriminate|].
    destruct (f k) as [v|] eqn:Ef.
    - destruct (closed S s) eqn:Ec.
      + injection H as <- <- <-. exists []; simpl. repeat split; try lia. right. rewrite Nat.add_0_r, Ef. repeat split; auto. congruence.
      + destruct (step S s (CN (Nxt v))) as [s1 w1] eqn:E1.
        destruct (iter_loop S fuel f (Datatypes.S k) s1) as [[[n2 s2] w2]|] eqn:E2; [|discriminate].
        injection H as <- <- <-. destruct (IH _ _ _ _ _ E2) as (vs & R & Hf & Ho & He).
        exists (v :: vs). repeat split.
        * simpl. rewrite E1, R; auto.
        * intros [|j] Hj; simpl in *; [rewrite Nat.add_0_r; auto|].
          rewrite <- (Hf j) by lia. f_equal; lia.
        * intros [|j] Hj; simpl in *; auto. rewrite E1.
          specialize (Ho j ltac:(lia)). destruct (run_from S s1 (nexts (firstn j vs))); auto.
        * simpl. rewrite Nat.add_succ_r. exact He.
    - injection H as <- <- <-. exists []; simpl. rewrite Nat.add_0_r. repeat split; try lia. auto.
  Qed.

  Lemma iter_loop_none fuel f k : forall s, iter_loop S fuel f k s = None ->
    exists vs, length vs = fuel /\
      (forall j, j < length vs -> f (k + j) = nth_error vs j) /\
      (forall j, j < length vs -> closed S (fst (run_from S s (nexts (firstn j vs)))) = false).
  Proof.
    revert k; induction fuel as [|fuel IH]; simpl; intros k s H.
    - exists []; simpl; repeat split; intros; lia.
    - destruct (f k) as [v|] eqn:Ef; [|discriminate].
      destruct (closed S s) eqn:Ec; [discriminate|].
      destruct (step S s (CN (Nxt v))) as [s1 w1] eqn:E1.
      destruct (iter_loop S fuel f (Datatypes.S k) s1) as [[[n2 s2] w2]|] eqn:E2; [discriminate|].
      destruct (IH _ _ E2) as (vs & Hl & Hf & Ho).
      exists (v :: vs). simpl. repeat split; auto.
      + intros [|j] Hj; simpl in *; [rewrite Nat.add_0_r; auto|].
        rewrite <- (Hf j) by lia. f_equal; lia.
      + intros [|j] Hj; simpl in *; auto. rewrite E1.
        specialize (Ho j ltac:(lia)). destruct (run_from S s1 (nexts (firstn j vs))); auto.
  Qed.

  (** the producer *)
  Lemma produce_obey : forall p cs s w, reached cs s w ->
    reached (obey (fun cs => closed S (final S cs)) p cs) (fst (produce S p s)) (w ++ snd (produce S p s)).
  Proof.
    induction p as [|n k IH|t k IH|k IH]; intros cs s w H; simpl.
    - rewrite app_nil_r; auto.
    - pose proof (reached_step (CN n) H) as H1. destruct (step S s (CN n)) as [s1 w1]; simpl in *.
      specialize (IH _ _ _ H1). destruct (produce S k s1); simpl in *. rewrite app_assoc; auto.
    - pose proof (reached_step (CAdd t) H) as H1. destruct (step S s (CAdd t)) as [s1 w1]; simpl in *.
      specialize (IH _ _ _ H1). destruct (produce S k s1); simpl in *. rewrite app_assoc; auto.
    - rewrite (reached_final H). apply IH; auto.
  Qed.
End Src.

(** Subscribing to an inert source. *)
Definition inert_source {I E} (src : source I E) : bool :=
  match src with SNever | SCreate _ | SDefer _ => false | _ => true end.

Section Pipe.
  Context {I E O F : Type}.
  Variable p : pipe I E O F.
  Hypothesis Hok : ok p.
  Let L := head_lawful p Hok.

  Lemma seen_hist cs : seen p cs = notifs_of (spec_pipe p (hist cs)).
  Proof. apply (head_any_history p cs Hok). Qed.

  Lemma finish cs s w : reached (head p) cs s w ->
    let r := w0 (head p) ++ w ++ snd (inert (head p) s) in
    obs r = notifs_of (spec_pipe p (hist cs)) /\ tds r = pipe_adds p ++ added cs /\ ordered r.
  Proof.
    intros H. destruct (inert_ok L H) as (H1 & H2 & H3 & _). cbv zeta in *. split; [|split]; auto.
    eapply eq_trans; [exact H1|apply seen_hist].
  Qed.

  Lemma just_ok fuel v n : exists w,
    subscribe (head p) fuel (SJust v) n = Some (0, HInert _, w) /\
    obs w = notifs_of (spec_pipe p ([v], FDone)) /\ tds w = pipe_adds p /\ ordered w.
  Proof.
    unfold subscribe; cbn [subscribe_at]. unfold step2.
    pose proof (reached_step (CN (Nxt v)) (reached_nil (head p))) as H1.
    destruct (step (head p) (s0 (head p)) (CN (Nxt v))) as [s1 w1]; simpl in H1.
    pose proof (reached_step (CN Cmp) H1) as H2.
    destruct (step (head p) s1 (CN Cmp)) as [s2 w2]; simpl in H2.
    destruct (finish H2) as (F1 & F2 & F3). simpl in F2. rewrite app_nil_r in F2.
    unfold inert in *; simpl in *. eauto 10.
  Qed.
  Lemma empty_ok fuel n : exists w,
    subscribe (head p) fuel SEmpty n = Some (0, HInert _, w) /\
    obs w = notifs_of (spec_pipe p ([], FDone)) /\ tds w = pipe_adds p /\ ordered w.
  Proof.
    unfold subscribe; cbn [subscribe_at].
    pose proof (reached_step (CN Cmp) (reached_nil (head p))) as H1.
    destruct (step (head p) (s0 (head p)) (CN Cmp)) as [s1 w1]; simpl in H1.
    destruct (finish H1) as (F1 & F2 & F3). simpl in F2. rewrite app_nil_r in F2.
    unfold inert in *; simpl in *. eauto 10.
  Qed.
  Lemma throw_ok fuel e n : exists w,
    subscribe (head p) fuel (SThrow e) n = Some (0, HInert _, w) /\
    obs w = notifs_of (spec_pipe p ([], FErr e)) /\ tds w = pipe_adds p /\ ordered w.
  Proof.
    unfold subscribe; cbn [subscribe_at].
    pose proof (reached_step (CN (Err e)) (reached_nil (head p))) as H1.
    destruct (step (head p) (s0 (head p)) (CN (Err e))) as [s1 w1]; simpl in H1.
    destruct (finish H1) as (F1 & F2 & F3). simpl in F2. rewrite app_nil_r in F2.
    unfold inert in *; simpl in *. eauto 10.
  Qed.
  Lemma closed_ok fuel n : exists w,
    subscribe (head p) fuel SClosed n = Some (0, HInert _, w) /\
    obs w = seen p [] /\ tds w = pipe_adds p /\ ordered w.
  Proof.
    unfold subscribe; cbn [subscribe_at].
    destruct (inert_ok L (reached_nil (head p))) as (F1 & F2 & F3 & _). simpl in F2. rewrite app_nil_r in F2.
    unfold inert in *; simpl in *. eauto 10.
  Qed.

  (** iter: however it ends *)
  Lemma iter_ok fuel f n k h w : subscribe (head p) fuel (SIter f) n = Some (k, h, w) ->
    exists vs,
      (forall j, j < length vs -> f j = nth_error vs j) /\
      (forall j, j < length vs -> is_closed p (nexts (firstn j vs)) = false) /\
      h = HInert _ /\ tds w = pipe_adds p /\ ordered w /\
      ((f (length vs) = None /\ k = length vs /\ obs w = notifs_of (spec_pipe p (vs, FDone))) \/
       (f (length vs) <> None /\ is_closed p (nexts vs) = true /\ k = S (length vs) /\
        obs w = notifs_of (spec_pipe p (vs, FOpen)))).
  Proof.
    unfold subscribe; cbn [subscribe_at]. intros H.
    destruct (iter_loop (head p) fuel f 0 (s0 (head p))) as [[[k1 s1] w1]|] eqn:El; [|discriminate].
    destruct (@iter_loop_some _ _ _ _ _ _ _ _ _ _ _ El) as (vs & R & Hf & Ho & He). simpl in *.
    assert (Hr : reached (head p) (nexts vs) s1 w1) by exact R.
    exists vs. split; [auto|]. split; [auto|].
    pose proof (reached_final Hr) as Hfin.
    destruct (closed (head p) s1) eqn:Ec.
    - destruct (finish Hr) as (F1 & F2 & F3).
      unfold inert in *; rewrite Ec in *; simpl in *. injection H as <- <- <-.
      pose proof (added_nexts (E := E) vs []) as Hadd. rewrite app_nil_r in Hadd; simpl in Hadd.
      rewrite Hadd, app_nil_r in F2.
      repeat split; auto.
      destruct He as [[He1 He2]|(He1 & He2 & He3)].
      + left. repeat split; auto. rewrite F1, <- seen_hist.
        assert (Hc : is_closed p (nexts vs) = true) by (unfold is_closed; rewrite Hfin; auto).
        rewrite <- (proj2 (@C02_closed_absorbing _ _ _ _ p (nexts vs) [CN Cmp] Hok Hc)).
        rewrite seen_hist. unfold hist. rewrite signals_nexts, cut_nexts; simpl. rewrite app_nil_r; auto.
      + right. repeat split; auto.
        * unfold is_closed; rewrite Hfin; auto.
        * rewrite F1. unfold hist. rewrite <- (app_nil_r (nexts vs)), signals_nexts, cut_nexts; simpl.
          rewrite app_nil_r; auto.
    - destruct He as [[He1 He2]|(He1 & He2 & He3)]; [|congruence].
      pose proof (reached_step (CN Cmp) Hr) as H2.
      destruct (step (head p) s1 (CN Cmp)) as [s2 w2]; simpl in H2.
      destruct (finish H2) as (F1 & F2 & F3).
      unfold inert in *; simpl in *. injection H as <- <- <-.
      rewrite <- app_assoc in F1, F2, F3.
      rewrite added_nexts, app_nil_r in F2.
      repeat split; auto. left. repeat split; auto. rewrite F1. unfold hist.
      rewrite signals_nexts, cut_nexts; simpl. rewrite app_nil_r; auto.
  Qed.

  Lemma iter_hangs fuel f n : subscribe (head p) fuel (SIter f) n = None ->
    exists vs, length vs = fuel /\ (forall j, j < length vs -> f j = nth_error vs j) /\
      (forall j, j < length vs -> is_closed p (nexts (firstn j vs)) = false).
  Proof.
    unfold subscribe; cbn [subscribe_at]. intros H.
    destruct (iter_loop (head p) fuel f 0 (s0 (head p))) as [[[k1 s1] w1]|] eqn:El.
    - destruct (if closed (head p) s1 then (s1, []) else step (head p) s1 (CN Cmp)) as [a b].
      unfold inert in H. discriminate.
    - apply iter_loop_none in El as (vs & H1 & H2 & H3). exists vs. repeat split; auto.
  Qed.

  (** a finite iterator *)
  Lemma iter_list l fuel n : length l < fuel -> exists k w,
    subscribe (head p) fuel (SIter (nth_error l)) n = Some (k, HInert _, w) /\
    obs w = notifs_of (spec_pipe p (l, FDone)) /\ tds w = pipe_adds p /\ ordered w /\ k <= length l.
  Proof.
    intros Hlen. destruct (subscribe (head p) fuel (SIter (nth_error l)) n) as [[[k h] w]|] eqn:Es.
    - destruct (@iter_ok _ _ _ _ _ _ Es) as (vs & Hf & Ho & -> & Ht & Hor & He).
      assert (Hvs : vs = firstn (length vs) l /\ length vs <= length l).
      { assert (Hle : length vs <= length l).
        { destruct (le_lt_dec (length vs) (length l)); auto.
          specialize (Hf (length l) l0). rewrite (proj2 (nth_error_None l (length l))) in Hf by lia.
          symmetry in Hf. apply nth_error_None in Hf. lia. }
        split; auto. apply nth_error_same; intros j.
        destruct (le_lt_dec (length vs) j) as [Hj|Hj].
        - rewrite (proj2 (nth_error_None vs j)) by lia. symmetry. apply nth_error_None.
          rewrite firstn_length. lia.
        - rewrite <- Hf by auto. rewrite nth_error_first; auto. }
      destruct Hvs as [Hvs Hle].
      exists k, w. split; auto. destruct He as [(H1 & -> & H2)|(H1 & H2 & -> & H3)].
      + apply nth_error_None in H1. assert (Hl : vs = l) by (rewrite Hvs; apply firstn_all2; lia).
        rewrite H2, Hl. repeat split; auto.
      + assert (length vs < length l).
        { destruct (le_lt_dec (length l) (length vs)); auto. exfalso. apply H1, nth_error_None. auto. }
        repeat split; auto.
        rewrite H3. assert (Hh : notifs_of (spec_pipe p (vs, FOpen)) = seen p (nexts vs)).
        { rewrite seen_hist. unfold hist. rewrite <- (app_nil_r (nexts vs)), signals_nexts, cut_nexts; simpl.
          rewrite app_nil_r; auto. }
        rewrite Hh.
        rewrite <- (proj2 (@C02_closed_absorbing _ _ _ _ p (nexts vs) (nexts (skipn (length vs) l) ++ [CN Cmp]) Hok H2)).
        rewrite app_assoc, <- nexts_app. rewrite Hvs at 1. rewrite firstn_skipn.
        rewrite seen_hist. unfold hist. rewrite signals_nexts, cut_nexts; simpl. rewrite app_nil_r; auto.
    - exfalso. apply iter_hangs in Es as (vs & H1 & H2 & H3). subst fuel.
      specialize (H2 (length l) Hlen). rewrite (proj2 (nth_error_None l (length l))) in H2 by lia.
      symmetry in H2. apply nth_error_None in H2. lia.
  Qed.

  Lemma stream_prefix (g : nat -> I) (f : nat -> option I) vs :
    (forall k, f k = Some (g k)) -> (forall j, j < length vs -> f j = nth_error vs j) ->
    vs = map g (seq 0 (length vs)).
  Proof.
    intros Hf Hv. apply nth_error_same; intros j.
    destruct (le_lt_dec (length vs) j) as [Hj|Hj].
    - rewrite (proj2 (nth_error_None vs j)) by lia. symmetry. apply nth_error_None.
      rewrite map_length, seq_length; lia.
    - rewrite <- Hv by auto. rewrite Hf. symmetry. rewrite nth_error_map.
      rewrite nth_error_nth' with (d := 0) by (rewrite seq_length; lia).
      rewrite seq_nth by lia. reflexivity.
  Qed.

  Lemma firstn_map_seq (g : nat -> I) j n : j <= n -> firstn j (map g (seq 0 n)) = map g (seq 0 j).
  Proof.
    intros H. rewrite firstn_map. f_equal.
    replace n with (j + (n - j)) by lia. rewrite seq_app, firstn_app, seq_length, Nat.sub_diag; simpl.
    rewrite firstn_all2, app_nil_r; auto. rewrite seq_length; lia.
  Qed.

  (** an endless iterator: it stops exactly when the pipeline closes *)
  Lemma iter_endless (g : nat -> I) fuel n m :
    m < fuel -> is_closed p (nexts (map g (seq 0 m))) = true ->
    (forall j, j < m -> is_closed p (nexts (map g (seq 0 j))) = false) ->
    exists w, subscribe (head p) fuel (SIter (fun k => Some (g k))) n = Some (S m, HInert _, w) /\
      obs w = notifs_of (spec_pipe p (map g (seq 0 m), FOpen)) /\ tds w = pipe_adds p /\ ordered w.
  Proof.
    intros Hm Hc Hmin.
    destruct (subscribe (head p) fuel (SIter (fun k => Some (g k))) n) as [[[k h] w]|] eqn:Es.
    - destruct (@iter_ok _ _ _ _ _ _ Es) as (vs & Hf & Ho & -> & Ht & Hor & He).
      destruct He as [(H1 & _)|(H1 & H2 & -> & H3)]; [discriminate|].
      pose proof (stream_prefix g _ vs (fun _ => eq_refl) Hf) as Hvs.
      assert (Hl : length vs = m).
      { destruct (lt_eq_lt_dec (length vs) m) as [[H|H]|H]; auto; exfalso.
        - specialize (Hmin _ H). rewrite Hvs in H2. congruence.
        - specialize (Ho _ H). rewrite Hvs, firstn_map_seq in Ho by lia. congruence. }
      rewrite Hl in *. exists w. rewrite Hvs in H3. repeat split; auto.
    - exfalso. apply iter_hangs in Es as (vs & H1 & H2 & H3). subst fuel.
      pose proof (stream_prefix g _ vs (fun _ => eq_refl) H2) as Hvs.
      specialize (H3 _ Hm). rewrite Hvs, firstn_map_seq in H3 by lia. congruence.
  Qed.

  Lemma iter_forever (g : nat -> I) n :
    (forall j, is_closed p (nexts (map g (seq 0 j))) = false) ->
    forall fuel, subscribe (head p) fuel (SIter (fun k => Some (g k))) n = None.
  Proof.
    intros Hno fuel.
    destruct (subscribe (head p) fuel (SIter (fun k => Some (g k))) n) as [[[k h] w]|] eqn:Es; auto.
    exfalso. destruct (@iter_ok _ _ _ _ _ _ Es) as (vs & Hf & Ho & _ & _ & _ & He).
    destruct He as [(H1 & _)|(H1 & H2 & _)]; [discriminate|].
    rewrite (stream_prefix g _ vs (fun _ => eq_refl) Hf), Hno in H2. discriminate.
  Qed.

  (** the subscription returned by an inert source *)
  Lemma inert_run cs : forall X (D : subscriber X I E), hrun (HInert D) cs = (HInert D, map ETd (hadds cs)).
  Proof.
    intros X D. induction cs as [|[] cs IH]; simpl; rewrite ?IH; simpl; rewrite ?map_app; auto.
  Qed.

  Lemma inert_source_handle fuel src n k h w : inert_source src = true ->
    subscribe (head p) fuel src n = Some (k, h, w) -> h = HInert _ /\ tds w = pipe_adds p /\ ordered w.
  Proof.
    intros Hs H. destruct src; try discriminate.
    - destruct (just_ok fuel v n) as (w' & H1 & H2 & H3 & H4). rewrite H1 in H. injection H as <- <- <-; auto.
    - destruct (@iter_ok _ _ _ _ _ _ H) as (vs & _ & _ & H1 & H2 & H3 & _); auto.
    - destruct (empty_ok fuel n) as (w' & H1 & H2 & H3 & H4). rewrite H1 in H. injection H as <- <- <-; auto.
    - destruct (throw_ok fuel e n) as (w' & H1 & H2 & H3 & H4). rewrite H1 in H. injection H as <- <- <-; auto.
    - destruct (closed_ok fuel n) as (w' & H1 & H2 & H3 & H4). rewrite H1 in H. injection H as <- <- <-; auto.
  Qed.

  Lemma inert_session fuel src n cs k c w : inert_source src = true ->
    session (head p) fuel src n cs = Some (k, c, w) ->
    c = true /\ tds w = pipe_adds p ++ hadds cs /\ ordered w /\
    forall k' c' w', session (head p) fuel src n [] = Some (k', c', w') -> obs w = obs w'.
  Proof.
    intros Hs. unfold session. destruct (subscribe (head p) fuel src n) as [[[k1 h1] w1]|] eqn:Es; [|discriminate].
    destruct (@inert_source_handle _ _ _ _ _ _ Hs Es) as (-> & Ht & Ho).
    rewrite !inert_run. simpl. intros H. injection H as <- <- <-. repeat split.
    - rewrite tds_app, tds_map, Ht; auto.
    - apply ordered_app_silent; auto. apply obs_map_td.
    - intros k' c' w' H. injection H as <- <- <-. rewrite !obs_app, obs_map_td; simpl. auto.
  Qed.
End Pipe.

Definition closer (c : hcall) : bool := match c with HAdd _ => false | _ => true end.
Definition adding (c : hcall) : Prop := closer c = false.
Definition not_unsub (c : hcall) : Prop := c <> HUnsub.

Section Handles.
  Context {X I E : Type}.
  Variable S : subscriber X I E.
  Variable adds : list nat.
  Hypothesis L : lawful S adds.

  Lemma hrun_cons h c cs : hrun (D := S) h (c :: cs) =
    (fst (hrun (fst (hstep h c)) cs), snd (hstep h c) ++ snd (hrun (fst (hstep h c)) cs)).
  Proof. simpl. destruct (hstep h c) as [h1 w1]; simpl. destruct (hrun h1 cs); auto. Qed.
  Lemma hrun_app a b h : hrun (D := S) h (a ++ b) =
    (fst (hrun (fst (hrun h a)) b), snd (hrun h a) ++ snd (hrun (fst (hrun h a)) b)).
  Proof.
    revert h; induction a as [|c a IH]; intros h.
    - simpl. destruct (hrun h b); auto.
    - rewrite <- app_comm_cons, !hrun_cons, IH; simpl. rewrite app_assoc; auto.
  Qed.

  Lemma own_adds cs : forall l d, Forall adding cs ->
    hrun (HOwn S (mkSData false l) d) cs = (HOwn S (mkSData false (l ++ hadds cs)) d, []).
  Proof.
    induction cs as [|[|t|] cs IH]; intros l d H; simpl; rewrite ?app_nil_r; auto; inversion H; subst; try discriminate.
    unfold sd_add; simpl. rewrite IH; auto. rewrite app_assoc; auto.
  Qed.

  Lemma own_closed cs : forall d, l_inv L d -> closed S d = true ->
    exists d', fst (hrun (HOwn S (mkSData true []) d) cs) = HOwn S (mkSData true []) d' /\ l_inv L d' /\ closed S d' = true /\
      obs (snd (hrun (HOwn S (mkSData true []) d) cs)) = [] /\ tds (snd (hrun (HOwn S (mkSData true []) d) cs)) = hadds cs.
  Proof.
    induction cs as [|c cs IH]; intros d Hi Hc; [exists d; simpl; auto|].
    rewrite hrun_cons.
    assert (Hs : exists d1, fst (hstep (HOwn S (mkSData true []) d) c) = HOwn S (mkSData true []) d1 /\
       l_inv L d1 /\ closed S d1 = true /\
       snd (hstep (HOwn S (mkSData true []) d) c) = map ETd (match c with HAdd t => t | _ => [] end)).
    { destruct c as [|t|]; simpl.
      - pose proof (l_mute L d (CN Uns) Hi Hc eq_refl) as Hm.
        pose proof (l_closed L d (CN Uns) Hi Hc) as [Hc1 _].
        pose proof (l_step L d (CN Uns) Hi) as Hi1.
        destruct (step S d (CN Uns)) as [d1 w1]; simpl in *. subst; eauto.
      - unfold sd_add; simpl. eauto.
      - rewrite Hc; simpl.
        pose proof (l_mute L d CDrop Hi Hc eq_refl) as Hm.
        pose proof (l_closed L d CDrop Hi Hc) as [Hc1 _].
        pose proof (l_step L d CDrop Hi) as Hi1.
        destruct (step S d CDrop) as [d1 w1]; simpl in *. subst; eauto. }
    destruct Hs as (d1 & H1 & H2 & H3 & H4). rewrite H1, H4.
    destruct (IH d1 H2 H3) as (d2 & G1 & G2 & G3 & G4 & G5).
    exists d2. simpl. rewrite G1, obs_app, tds_app, G4, G5, obs_map_td, tds_map. repeat split; auto.
    destruct c; auto.
  Qed.

  (** a call that closes an open destination *)
  Lemma close_open d c : l_inv L d -> closed S d = false -> closing c = true -> signals [c] = [Uns] ->
    l_inv L (fst (step S d c)) /\ closed S (fst (step S d c)) = true /\ obs (snd (step S d c)) = [] /\
    tds (snd (step S d c)) = l_pend L d.
  Proof.
    intros Hi Hc Hcl Hs.
    assert (Ha : is_add c = false) by (destruct c; auto; discriminate).
    assert (Hq : quiet_close c = true) by (destruct c as [[]| |]; auto; discriminate).
    pose proof (l_step L d c Hi) as H1. pose proof (l_term L d c Hi Hcl) as H2.
    repeat split; auto.
    - apply (l_quiet L d c Hi Hq).
    - pose proof (proj1 (run_from_open L [c] d Hi Hc)) as H3. rewrite run_from_cons in H3; simpl in H3.
      rewrite H2, app_nil_r in H3. rewrite H3.
      assert (Hadd : added [c] = []) by (destruct c; auto; discriminate).
      simpl in Hadd. destruct c; try discriminate; apply app_nil_r.
  Qed.

  Lemma own_close c l d : l_inv L d -> closed S d = false -> closer c = true ->
    exists d', fst (hstep (HOwn S (mkSData false l) d) c) = HOwn S (mkSData true []) d' /\ l_inv L d' /\ closed S d' = true /\
      obs (snd (hstep (HOwn S (mkSData false l) d) c)) = [] /\
      tds (snd (hstep (HOwn S (mkSData false l) d) c)) = l ++ l_pend L d /\
      ordered (snd (hstep (HOwn S (mkSData false l) d) c)).
  Proof.
    intros Hi Hc Hcl.
    destruct (close_open d (CN Uns) Hi Hc eq_refl eq_refl) as (U1 & U2 & U3 & U4).
    destruct c as [|t|]; try discriminate; simpl; rewrite ?Hc; simpl.
    - destruct (step S d (CN Uns)) as [d1 w1]; simpl in *. exists d1.
      rewrite obs_app, tds_app, obs_map_td, tds_map, U3, U4. repeat split; auto.
      apply ordered_silent. rewrite obs_app, obs_map_td, U3; auto.
    - destruct (step S d (CN Uns)) as [d1 w1]; simpl in *.
      pose proof (l_mute L d1 CDrop U1 U2 eq_refl) as Hm.
      pose proof (l_closed L d1 CDrop U1 U2) as [Hc1 _].
      pose proof (l_step L d1 CDrop U1) as Hi1.
      destruct (step S d1 CDrop) as [d2 w2]; simpl in *. subst w2. exists d2.
      rewrite !app_nil_r, obs_app, tds_app, obs_map_td, tds_map, U3, U4. repeat split; auto.
      apply ordered_silent. rewrite obs_app, obs_map_td, U3; auto.
  Qed.

  (** shared *)
  Lemma shared_closed cs : forall (d : option (st S)), hrun (HShared S true (mkSData true []) d) cs =
    (HShared S true (mkSData true []) d, map ETd (hadds cs)).
  Proof.
    induction cs as [|[|t|] cs IH]; intros d; simpl; auto; try (rewrite IH; auto; fail).
    unfold sd_add; simpl. rewrite IH. rewrite map_app; auto.
  Qed.
  Lemma shared_open cs : forall l d, Forall not_unsub cs ->
    hrun (HShared S false (mkSData false l) d) cs = (HShared S false (mkSData false (l ++ hadds cs)) d, []).
  Proof.
    induction cs as [|[|t|] cs IH]; intros l d H; simpl; rewrite ?app_nil_r; auto; inversion H; subst.
    - exfalso; auto.
    - unfold sd_add; simpl. rewrite IH; auto. rewrite app_assoc; auto.
    - rewrite IH; auto.
  Qed.
End Handles.

Section Sessions.
  Context {I E O F : Type}.
  Variable p : pipe I E O F.
  Hypothesis Hok : ok p.
  Let L := head_lawful p Hok.

  Lemma w0_run : w0 (head p) = run (head p) [].
  Proof. unfold run; simpl. rewrite app_nil_r; auto. Qed.
  Lemma open_w0 : is_closed p [] = false -> tds (w0 (head p)) = [] /\ l_pend L (s0 (head p)) = pipe_adds p.
  Proof.
    unfold is_closed, final; simpl. intros Hc. destruct (l_init L) as [(_ & Hw & Hp)|(Hc' & _)]; [|congruence].
    split; auto. apply not_td_tds; auto.
  Qed.

  Lemma never_open fuel n cs : is_closed p [] = false -> Forall adding cs ->
    exists w, session (head p) fuel SNever n cs = Some (0, false, w) /\ obs w = seen p [] /\ tds w = [].
  Proof.
    intros Hc Ha. unfold session, subscribe; cbn [subscribe_at]. rewrite own_adds by auto.
    eexists; split; [unfold hclosed|split].
    - replace (closed (head p) (s0 (head p))) with false by (symmetry; exact Hc). reflexivity.
    - rewrite !app_nil_r. unfold seen, log. rewrite <- w0_run; auto.
    - rewrite !app_nil_r. apply (open_w0 Hc).
  Qed.

  Lemma never_close fuel n cs c ds : is_closed p [] = false -> Forall adding cs -> closer c = true ->
    exists w, session (head p) fuel SNever n (cs ++ c :: ds) = Some (0, true, w) /\ obs w = seen p [] /\
      tds w = hadds cs ++ pipe_adds p ++ hadds ds /\ ordered w.
  Proof.
    intros Hc Ha Hcl. unfold session, subscribe; cbn [subscribe_at].
    rewrite hrun_app, own_adds by auto. cbn [fst snd app].
    rewrite hrun_cons.
    destruct (@own_close _ _ _ _ _ L c (hadds cs) _ (l_inv0 L) Hc Hcl) as (d1 & H1 & H2 & H3 & H4 & H5 & H6).
    change (mkSData false ([] ++ hadds cs)) with (mkSData false (hadds cs)). rewrite H1.
    destruct (own_closed L ds d1 H2 H3) as (d2 & G1 & G2 & G3 & G4 & G5).
    destruct (open_w0 Hc) as [W1 W2].
    eexists; split; [|split; [|split]].
    - cbn [fst]. rewrite G1. cbn [hclosed]. rewrite G3. reflexivity.
    - cbn [snd]. rewrite !obs_app, H4, G4, !app_nil_r. unfold seen, log. rewrite <- w0_run; auto.
    - cbn [snd]. rewrite !tds_app, W1, H5, G5, W2; simpl; rewrite <- app_assoc; auto.
    - cbn [snd]. apply ordered_app_silent; [rewrite app_nil_r|rewrite obs_app, H4, G4; auto].
      rewrite w0_run. apply (run_ordered L).
  Qed.

  Definition made (q : prog I E) : list (call I E) := obey (is_closed p) q [].

  Lemma create_closed fuel n q cs : is_closed p (made q) = true ->
    exists w, session (head p) fuel (SCreate q) n cs = Some (0, true, w) /\
      obs w = seen p (made q) /\ tds w = pipe_adds p ++ added (made q) ++ hadds cs /\ ordered w.
  Proof.
    intros Hc. unfold session, subscribe; cbn [subscribe_at].
    pose proof (produce_obey q (reached_nil (head p))) as R. simpl in R.
    destruct (produce (head p) q (s0 (head p))) as [s1 w1]; simpl in R.
    change (obey (fun cs => closed (head p) (final (head p) cs)) q []) with (made q) in R.
    pose proof (reached_final R) as Hf. pose proof (reached_run R) as Hr.
    pose proof (reached_inv L R) as Hi.
    assert (Hc1 : closed (head p) s1 = true) by (rewrite <- Hf; exact Hc).
    unfold into_shared.
    pose proof (l_closed L s1 (CAdd []) Hi Hc1) as [Hc2 Hw2]. pose proof (l_step L s1 (CAdd []) Hi) as Hi2.
    destruct (step (head p) s1 (CAdd [])) as [s2 w2]; simpl in Hc2, Hw2, Hi2. rewrite Hc2.
    pose proof (l_mute L s2 CDrop Hi2 Hc2 eq_refl) as Hm.
    destruct (step (head p) s2 CDrop) as [s3 w3]; simpl in Hm. subst w2 w3. simpl.
    rewrite shared_closed. cbn [hclosed].
    eexists; split; [reflexivity|].
    rewrite !app_nil_r, obs_app, tds_app, obs_map_td, tds_map, app_nil_r, Hr.
    split; [reflexivity|]. split.
    - rewrite (run_tds L). unfold is_closed in Hc; rewrite Hc, <- app_assoc; auto.
    - apply ordered_app_silent; [apply (run_ordered L)|apply obs_map_td].
  Qed.

  Lemma create_open fuel n q cs : is_closed p (made q) = false -> Forall not_unsub cs ->
    exists w, session (head p) fuel (SCreate q) n cs = Some (0, false, w) /\
      obs w = seen p (made q) /\ tds w = [].
  Proof.
    intros Hc Hcs. unfold session, subscribe; cbn [subscribe_at].
    pose proof (produce_obey q (reached_nil (head p))) as R. simpl in R.
    destruct (produce (head p) q (s0 (head p))) as [s1 w1]; simpl in R.
    change (obey (fun cs => closed (head p) (final (head p) cs)) q []) with (made q) in R.
    pose proof (reached_final R) as Hf. pose proof (reached_run R) as Hr.
    pose proof (reached_inv L R) as Hi.
    assert (Hc1 : closed (head p) s1 = false) by (rewrite <- Hf; exact Hc).
    unfold into_shared.
    destruct (l_open_add L s1 [] Hi Hc1) as (A1 & A2 & A3). pose proof (l_step L s1 (CAdd []) Hi) as Hi2.
    destruct (step (head p) s1 (CAdd [])) as [s2 w2]; simpl in A1, A2, A3, Hi2. rewrite A1. subst w2.
    rewrite shared_open by auto. cbn [hclosed].
    eexists; split; [reflexivity|].
    rewrite !app_nil_r, Hr. split; [reflexivity|].
    rewrite (run_tds L). unfold is_closed in Hc; rewrite Hc; auto.
  Qed.

  Lemma create_unsub fuel n q cs ds : is_closed p (made q) = false -> Forall not_unsub cs ->
    exists w, session (head p) fuel (SCreate q) n (cs ++ HUnsub :: ds) = Some (0, true, w) /\
      obs w = seen p (made q) /\ tds w = pipe_adds p ++ added (made q) ++ hadds cs ++ hadds ds /\ ordered w.
  Proof.
    intros Hc Hcs. unfold session, subscribe; cbn [subscribe_at].
    pose proof (produce_obey q (reached_nil (head p))) as R. simpl in R.
    destruct (produce (head p) q (s0 (head p))) as [s1 w1]; simpl in R.
    change (obey (fun cs => closed (head p) (final (head p) cs)) q []) with (made q) in R.
    unfold into_shared.
    pose proof (reached_inv L R) as Hi.
    assert (Hc1 : closed (head p) s1 = false) by (rewrite <- (reached_final R); exact Hc).
    pose proof (reached_step (CAdd []) R) as R2.
    destruct (l_open_add L s1 [] Hi Hc1) as (A1 & A2 & A3).
    destruct (step (head p) s1 (CAdd [])) as [s2 w2]; simpl in A1, A2, A3, R2. rewrite A1. subst w2.
    rewrite hrun_app, shared_open by auto. cbn [fst snd app].
    rewrite hrun_cons. cbn [hstep sd_closed fst snd sd_fin]. rewrite shared_closed. cbn [fst snd hclosed orb].
    unfold step2.
    pose proof (reached_step (CN Uns) R2) as R3.
    destruct (step (head p) s2 (CN Uns)) as [s3 w3]; simpl in R3.
    pose proof (reached_step CDrop R3) as R4.
    destruct (step (head p) s3 CDrop) as [s4 w4]; simpl in R4. cbn [snd].
    eexists; split; [reflexivity|].
    pose proof (reached_run R4) as Hr.
    destruct (drop_releases L ((made q ++ [CAdd []]) ++ [CN Uns])) as (D1 & D2 & _).
    assert (Ho1 : obs (run (head p) (((made q ++ [CAdd []]) ++ [CN Uns]) ++ [CDrop])) = seen p (made q)).
    { rewrite D1, run_app, run_one, obs_app, (l_quiet L _ (CN Uns) (final_inv L _) eq_refl), app_nil_r.
      rewrite run_app, run_one, obs_app. destruct (l_open_add L (final (head p) (made q)) [] (final_inv L _) Hc) as (_ & -> & _).
      apply app_nil_r. }
    assert (Ht1 : tds (run (head p) (((made q ++ [CAdd []]) ++ [CN Uns]) ++ [CDrop])) = pipe_adds p ++ added (made q)).
    { rewrite D2, added_snoc by reflexivity. f_equal.
      clear. induction (made q) as [|c l IH]; simpl; auto. destruct c; rewrite IH; auto. }
    pose proof (run_ordered L (((made q ++ [CAdd []]) ++ [CN Uns]) ++ [CDrop])) as Hor.
    rewrite <- Hr in Ho1, Ht1, Hor. clear - Ho1 Ht1 Hor.
    rewrite !app_nil_r in *. rewrite <- !app_assoc in *.
    repeat split.
    - rewrite !obs_app, !obs_map_td, !app_nil_r. rewrite !obs_app in Ho1. exact Ho1.
    - rewrite !tds_app, !tds_map. rewrite !tds_app in Ht1. rewrite !app_assoc in *. rewrite Ht1, <- !app_assoc; auto.
    - rewrite !app_assoc in *. apply ordered_app_silent; [apply ordered_app_silent|]; auto using obs_map_td.
  Qed.

  Lemma defer_ok fuel mk n cs : session (head p) fuel (SDefer mk) n cs = session (head p) fuel (mk n) 0 cs.
  Proof. reflexivity. Qed.
End Sessions.
