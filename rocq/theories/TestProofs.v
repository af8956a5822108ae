(** Proofs about the test helpers. *)
From Verif Require Import Base SubscrModel OpsModel TestModel.
Set Implicit Arguments.

Section Collector.
Variables A E : Type.
Notation note := (ncall A E).

Lemma collect_snoc : forall (l : list note) n, collect (l ++ [n]) = push (collect l) n.
Proof. intros. unfold collect. now rewrite fold_left_app. Qed.

(** Up to and including the first unsubscription, and the rest. *)
Lemma collect_split : forall l : list note,
  (~ In Uns l /\ collect l = mkC l [] false) \/
  (exists p q, l = p ++ Uns :: q /\ ~ In Uns p /\ collect l = mkC (p ++ [Uns]) q true).
Proof.
  intros l. induction l as [|n l IH] using rev_ind; [left; split; auto|]. rewrite collect_snoc.
  destruct IH as [[H ->]|(p & q & -> & H & ->)].
  - unfold push. cbn [c_closed c_before c_after]. destruct n; cbn [is_uns].
    1-3: left; split; auto; rewrite in_app_iff; intros [K|[K|[]]]; [auto|discriminate].
    right. exists l, []. auto.
  - right. exists p, (q ++ [n]). repeat split; auto. now rewrite <- app_assoc.
Qed.
Lemma all_collected : forall l : list note, all_notes (collect l) = l.
Proof.
  intros l. unfold all_notes. destruct (collect_split l) as [[_ ->]|(p & q & -> & _ & ->)]; cbn [c_before c_after]; [now rewrite app_nil_r|].
  now rewrite <- app_assoc.
Qed.
Lemma len_collected : forall l : list note, c_len (collect l) = length l.
Proof. intros l. unfold c_len. now rewrite <- (all_collected l) at 3; unfold all_notes; rewrite app_length. Qed.
Lemma try_nth_collected : forall (l : list note) n, try_nth (collect l) n = nth_error l n.
Proof.
  intros l n. transitivity (nth_error (all_notes (collect l)) n); [|now rewrite all_collected]. unfold try_nth, all_notes.
  destruct (Nat.ltb_spec n (length (c_before (collect l)))); [now rewrite nth_error_app1|now rewrite nth_error_app2].
Qed.
Lemma count_collected : forall k (l : list note), count_all k (collect l) = length (filter k l).
Proof.
  intros k l. unfold count_all, count_before, count_after. transitivity (length (filter k (all_notes (collect l)))); [|now rewrite all_collected].
  unfold all_notes. now rewrite filter_app, app_length.
Qed.
Lemma one_unsubscribe : forall l : list note, count_before is_uns (collect l) <= 1.
Proof.
  intros l. assert (N : forall p : list note, ~ In Uns p -> filter is_uns p = []).
  { intros p. induction p as [|n p IH]; auto. intros H. cbn. destruct n; cbn; try (apply IH; intros K; apply H; now right). exfalso. apply H. now left. }
  unfold count_before. destruct (collect_split l) as [[H ->]|(p & q & -> & H & ->)]; cbn [c_before]; [now rewrite N; auto|].
  rewrite filter_app, N; auto.
Qed.
Lemma nothing_after : forall l : list note,
  nothing_after_closed (collect l) = true <-> forall p q, l = p ++ Uns :: q -> q = [].
Proof.
  intros l. unfold nothing_after_closed. destruct (collect_split l) as [[H ->]|(p & q & -> & H & ->)]; cbn [c_after]; split; auto.
  - intros _ p q ->. exfalso. apply H, in_elt.
  - destruct q; [|discriminate]. intros _ p' q' E1. destruct q' as [|x q'] using rev_ind; auto. exfalso. clear IHq'.
    rewrite app_comm_cons, app_assoc in E1. apply app_inj_tail in E1 as [E1 _]. rewrite E1 in H. apply H, in_elt.
  - intros K. specialize (K p q eq_refl). now rewrite K.
Qed.

Variable eqb : note -> note -> bool.
Hypothesis eqb_ok : forall x y, eqb x y = true <-> x = y.

Lemma assert_nth_iff : forall (l : list note) n x, assert_nth eqb (collect l) n x = true <-> nth_error l n = Some x.
Proof.
  intros. unfold assert_nth. rewrite try_nth_collected. destruct (nth_error l n); split; intros H; try discriminate.
  - apply eqb_ok in H. now subst.
  - inversion H. now apply eqb_ok.
Qed.
Lemma skip_nth : forall (l : list note) i x, nth_error l i = Some x -> skipn i l = x :: skipn (i + 1) l.
Proof. induction l; intros [|i] x; cbn; try discriminate; [now intros [= ->]|]. apply IHl. Qed.
Lemma nth_skip : forall (l : list note) i x r, skipn i l = x :: r -> nth_error l i = Some x.
Proof. induction l; intros [|i] x r; cbn; try discriminate; [now intros [= -> ->]|]. apply IHl. Qed.
Lemma assert_all_iff : forall (l : list note) xs i, assert_all eqb (collect l) i xs = true <-> firstn (length xs) (skipn i l) = xs.
Proof.
  intros l xs. induction xs as [|x xs IH]; intros i; cbn [assert_all length]; [cbn; tauto|].
  rewrite Bool.andb_true_iff, assert_nth_iff, IH. split.
  - intros [H1 H2]. rewrite (skip_nth _ _ H1). cbn [firstn]. now rewrite H2.
  - intros H. destruct (skipn i l) as [|y r] eqn:Hs; [discriminate|]. cbn [firstn] in H. inversion H as [[H1 H2]]. subst y.
    assert (K := nth_skip _ _ Hs).
    split; auto. rewrite H2. rewrite (skip_nth _ _ K) in Hs. inversion Hs. congruence.
Qed.
Lemma none_nth : forall (l : list note) i, is_none (try_nth (collect l) i) = true <-> length l <= i.
Proof. intros. rewrite try_nth_collected, <- nth_error_None. destruct (nth_error l i); split; intros; try discriminate; auto. Qed.
Lemma assert_notifications_iff : forall (l : list note) i xs more,
  assert_notifications eqb (collect l) i xs more = true <->
  firstn (length xs) (skipn i l) = xs /\ (more = true -> length l <= i + length xs).
Proof.
  intros. unfold assert_notifications. rewrite Bool.andb_true_iff, assert_all_iff. destruct more.
  - rewrite none_nth. tauto.
  - split; intros [H _]; split; auto. discriminate.
Qed.
Lemma assert_last_iff : forall (l : list note) x, assert_last eqb (collect l) x = true <-> exists p, l = p ++ [x].
Proof.
  intros. unfold assert_last. rewrite !Bool.andb_true_iff, assert_nth_iff, none_nth, len_collected, Nat.ltb_lt. split.
  - intros (H & K & _). destruct l as [|y l _] using rev_ind; [cbn in H; lia|]. exists l.
    rewrite app_length, nth_error_app2 in K by (cbn; lia). cbn in K. replace (length l + 1 - 1 - length l) with 0 in K by lia. now inversion K.
  - intros [p ->]. rewrite app_length. cbn. repeat split; try lia. rewrite nth_error_app2 by lia. now replace (length p + 1 - 1 - length p) with 0 by lia.
Qed.
Lemma assert_nth_is_last_iff : forall (l : list note) n, assert_nth_is_last (collect l) n = true <-> length l = S n.
Proof.
  intros. unfold assert_nth_is_last. rewrite Bool.andb_true_iff, Bool.negb_true_iff, none_nth.
  assert (K : is_none (try_nth (collect l) n) = false <-> ~ length l <= n). { rewrite <- none_nth. destruct (is_none _); split; intros; congruence. }
  rewrite K. lia.
Qed.
Lemma assert_terminal_iff : forall (n : note) l closed up down sub,
  assert_terminal eqb n l closed up down sub = true <->
  is_next n = false /\ (exists p, l = p ++ [n]) /\ closed = true /\ up = true /\ down = true /\ sub = true.
Proof.
  intros. unfold assert_terminal. rewrite !Bool.andb_true_iff, Nat.ltb_lt, assert_notifications_iff, len_collected, Bool.negb_true_iff. split.
  - intros ((H & Hn) & (K & _) & Hc & Hu & Hd & Hs). repeat split; auto. destruct l as [|y l _] using rev_ind; [cbn in H; lia|]. exists l.
    rewrite app_length in K. cbn [length] in K. rewrite Nat.add_sub, skipn_app, skipn_all, Nat.sub_diag in K. cbn in K. congruence.
  - intros (Hn & [p ->] & Hc & Hu & Hd & Hs). rewrite app_length. cbn [length]. rewrite Nat.add_sub, skipn_app, skipn_all, Nat.sub_diag. cbn. repeat split; auto; intros; lia.
Qed.
End Collector.

(** *** The mock observer *)
Section Mock.
Variables A E : Type.
Notation call := (call A E).
(** What it is told, one by one; a drop tells it to unsubscribe if it is not closed. *)
Definition ends (c : call) : bool := match c with CN (Nxt _) | CAdd _ => false | _ => true end.
Fixpoint told (closed : bool) (cs : list call) : list (ncall A E) :=
  match cs with
  | [] => []
  | c :: r => match c with CN n => [n] | CAdd _ => [] | CDrop => if closed then [] else [Uns] end ++ told (closed || ends c) r
  end.

Lemma seen_app : forall X (a b : list (ev X)), seen (a ++ b) = seen a ++ seen b.
Proof. intros. apply flat_map_app. Qed.
Lemma seen_td : forall X l, seen (map (@ETd X) l) = [].
Proof. induction l; auto. Qed.

Lemma mock_tells : forall cs d, seen (snd (run_from (mock A E) d cs)) = told (sd_closed d) cs /\
  sd_closed (fst (run_from (mock A E) d cs)) = sd_closed d || existsb ends cs.
Proof.
  induction cs as [|c cs IH]; intros d; cbn [run_from told existsb]; [cbn; now rewrite Bool.orb_false_r|].
  destruct (step (mock A E) d c) as [d1 w1] eqn:Es. specialize (IH d1). destruct (run_from (mock A E) d1 cs) as [d2 w2]. cbn [fst snd] in *.
  destruct IH as [IH1 IH2]. rewrite seen_app, IH1, IH2. cbn [step mock] in Es. unfold mock_step, sd_unsubscribe, sd_add in Es.
  destruct d as [cl fs]; cbn [sd_closed sd_fin] in *.
  destruct c as [[a|e| | ]|t|]; destruct cl; inversion Es; subst; cbn [sd_closed ends orb]; rewrite ?seen_app, ?seen_td; cbn; rewrite ?seen_td, ?app_nil_r; auto.
  all: fold (seen (map (@ETd (ncall A E)) fs)); rewrite seen_td; auto.
Qed.

(** Teardowns: each once, all of them when it is closed. *)
Definition added (cs : list call) : list nat := flat_map (fun c => match c with CAdd t => t | _ => [] end) cs.
Definition torn {X} (w : list (ev X)) : list nat := flat_map (fun e => match e with ETd n => [n] | _ => [] end) w.
Lemma torn_app : forall X (a b : list (ev X)), torn (a ++ b) = torn a ++ torn b.
Proof. intros. apply flat_map_app. Qed.
Lemma torn_td : forall X l, torn (map (@ETd X) l) = l.
Proof. intros X l. induction l; auto. cbn. f_equal. exact IHl. Qed.
Lemma mock_tears : forall cs d, (sd_closed d = true -> sd_fin d = []) ->
  torn (snd (run_from (mock A E) d cs)) ++ sd_fin (fst (run_from (mock A E) d cs)) = sd_fin d ++ added cs /\
  (sd_closed (fst (run_from (mock A E) d cs)) = true -> sd_fin (fst (run_from (mock A E) d cs)) = []).
Proof.
  induction cs as [|c cs IH]; intros d Hd; cbn [run_from added flat_map]; [cbn; rewrite app_nil_r; auto|].
  destruct (step (mock A E) d c) as [d1 w1] eqn:Es.
  assert (K : (sd_closed d1 = true -> sd_fin d1 = []) /\ torn w1 ++ sd_fin d1 = sd_fin d ++ match c with CAdd t => t | _ => [] end).
  { cbn [step mock] in Es. unfold mock_step, sd_unsubscribe, sd_add in Es. destruct d as [cl fs]; cbn [sd_closed sd_fin] in *.
    assert (T : forall x : ncall A E, torn (EObs x :: map (@ETd (ncall A E)) fs) = fs) by (intros; apply torn_td).
    destruct cl; [rewrite (Hd eq_refl) in *|]; destruct c as [[a|e| | ]|t|]; inversion Es; subst; cbn [sd_closed sd_fin]; split; try discriminate; auto;
      rewrite ?torn_app, ?torn_td, ?T, ?app_nil_r; cbn; rewrite ?app_nil_r; auto. }
  destruct K as [K1 K2]. specialize (IH d1 K1). destruct (run_from (mock A E) d1 cs) as [d2 w2]. cbn [fst snd] in *.
  destruct IH as [IH1 IH2]. split; auto. rewrite torn_app, <- app_assoc, IH1, app_assoc, K2, <- app_assoc. reflexivity.
Qed.
Lemma mock_runs : forall cs, seen (run (mock A E) cs) = told false cs /\ closed (mock A E) (final (mock A E) cs) = existsb ends cs.
Proof. intros. unfold run, final. cbn [w0 mock app]. destruct (mock_tells cs (mkSData false [])) as [H1 H2]. auto. Qed.
Lemma mock_teardowns : forall cs,
  torn (run (mock A E) cs) = (if existsb ends cs then added cs else []).
Proof.
  intros. unfold run. cbn [w0 mock app].
  destruct (@mock_tears cs (mkSData false []) ltac:(discriminate)) as [H1 H2]. destruct (mock_tells cs (mkSData false [])) as [_ H3].
  cbn [sd_fin sd_closed app orb] in *. destruct (existsb ends cs) eqn:Ee.
  - rewrite (H2 H3), app_nil_r in H1. exact H1.
  - clear H1 H2 H3. assert (G : forall cs d, sd_closed d = false -> existsb ends cs = false -> torn (snd (run_from (mock A E) d cs)) = []).
    { clear. induction cs as [|c cs IH]; intros d Hd He; auto. cbn [existsb] in He. apply Bool.orb_false_iff in He as [Hc Hr]. cbn [run_from].
      destruct d as [cl fs]. cbn in Hd. subst cl. destruct c as [[a|e| | ]|t|]; try discriminate; cbn [step mock mock_step sd_add sd_closed sd_fin].
      - specialize (IH (mkSData false fs) eq_refl Hr). destruct (run_from _ _ _). exact IH.
      - specialize (IH (mkSData false (fs ++ t)) eq_refl Hr). destruct (run_from _ _ _). exact IH. }
    apply G; auto.
Qed.

(** *** The harness destination that takes [n] values *)
Notation harness n := (denote (t_harness (A:=A) (E:=E) n) (mock A E)).
Lemma run_cons : forall X I E (S : subscriber X I E) s c cs,
  snd (run_from S s (c :: cs)) = snd (step S s c) ++ snd (run_from S (fst (step S s c)) cs).
Proof. intros. cbn [run_from]. destruct (step S s c). cbn [fst snd]. destruct (run_from S _ cs). reflexivity. Qed.

Lemma harness_values : forall m vs n d, sd_closed d = false -> sd_fin d = [] ->
  seen (snd (run_from (harness m) (Some n, d) (map (fun a => CN (Nxt a)) vs))) =
    map (fun a => Nxt a) (firstn n vs) ++ (if (0 <? n) && (n <=? length vs) then [Cmp] else []).
Proof.
  intros m.
  assert (Z : forall vs d, seen (snd (run_from (harness m) (Some 0, d) (map (fun a => CN (Nxt a)) vs))) = []).
  { intros vs. induction vs as [|a vs IH]; intros d; auto. cbn [map]. rewrite run_cons. apply IH. }
  intros vs. induction vs as [|a vs IH]; intros n d Hc Hf; [cbn; destruct n; reflexivity|].
  destruct n as [|n]; [rewrite Z; reflexivity|]. cbn [map]. rewrite run_cons, seen_app. destruct d as [cl fs]. cbn in Hc, Hf. subst.
  destruct n as [|n].
  - change (fst (step (harness m) (Some 1, mkSData false []) (CN (Nxt a)))) with (Some 0, mkSData true []). rewrite Z. reflexivity.
  - change (fst (step (harness m) (Some (S (S n)), mkSData false []) (CN (Nxt a)))) with (Some (S n), mkSData false []).
    rewrite IH by auto. reflexivity.
Qed.
Lemma harness_takes : forall n vs,
  seen (run (harness (Some n)) (map (fun a => CN (Nxt a)) vs)) =
    map (fun a => Nxt a) (firstn n vs) ++ (if (0 <? n) && (n <=? length vs) then [Cmp] else []).
Proof. intros. unfold run. apply (@harness_values (Some n) vs n (mkSData false [])); auto. Qed.
End Mock.
