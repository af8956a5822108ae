(** The async subject with subscribers that call it. *)
From Coq Require Import Permutation.
From Verif Require Import Base SubjectModel SubjectSpec SubjectProofs SubjectMore.
Set Implicit Arguments.

Section Async.
Context {A E : Type}.
Context (f : A -> A -> A).
Notation P := (@async A E f).

(** *** The calls made for the calls of the users: users, what is kept, calls made, calls owed. *)
Inductive carried : list (ucmd A E) -> option A -> list (cmd A E) -> list (cmd A E) -> Prop :=
| Ca0 : carried [] None [] []
| CaU us x cs o u : carried us x cs o -> o = [] \/ o = [KCmp] ->
    carried (us ++ [u]) (po_keep P x u) cs (po_calls P (po_keep P x u) (finished cs) (failed cs) u ++ o)
| CaM us x cs c o : carried us x cs (c :: o) -> carried us x (cs ++ [c]) o.

Definition first_step (x : option A) (cs : list (cmd A E)) (u : ucmd A E) : list (cmd A E) :=
  match u with UCmp => map KNext (opt_list x) | _ => po_calls P x (finished cs) (failed cs) u end.
Definition mstep (p : option A * list (cmd A E)) (y : acall A E) : option A * list (cmd A E) :=
  match y with
  | AUser u => (po_keep P (fst p) u, snd p ++ first_step (po_keep P (fst p) u) (snd p) u)
  | ADone => (fst p, snd p ++ [KCmp])
  end.
Definition mexpand (m : list (acall A E)) : option A * list (cmd A E) := fold_left mstep m (None, []).

Lemma mexpand_app m y : mexpand (m ++ [y]) = mstep (mexpand m) y.
Proof. unfold mexpand. rewrite fold_left_app. reflexivity. Qed.
Lemma users_app (m1 m2 : list (acall A E)) : users (m1 ++ m2) = users m1 ++ users m2.
Proof. apply flat_map_app. Qed.
Lemma awaited_app : forall (m1 : list (acall A E)) m2 n, awaited n (m1 ++ m2) =
  match awaited n m1 with Some k => awaited k m2 | None => None end.
Proof.
  induction m1 as [|[u|] m1 IH]; intros m2 n; cbn [app awaited]; auto.
  - destruct u; auto.
  - destruct n; auto.
Qed.

Lemma first_no_cmp x cs u : ~ In KCmp (first_step x cs u).
Proof.
  destruct u; cbn; try (intros [Y|[]]; discriminate); try tauto.
  destruct x; cbn; [intros [Y|[]]; discriminate|tauto].
Qed.
Lemma calls_first x cs u : po_calls P x (finished cs) (failed cs) u =
  first_step x cs u ++ match u with UCmp => [KCmp] | _ => [] end.
Proof. destruct u; cbn; auto. Qed.

Lemma carried_marked us x cs o : carried us x cs o -> exists m n o1,
  users m = us /\ o = o1 ++ repeat KCmp n /\ ~ In KCmp o1 /\ mexpand m = (x, cs ++ o1) /\ awaited 0 m = Some n.
Proof.
  intros H. induction H as [|us x cs o u H IH Ho|us x cs c o H IH].
  - exists [], 0, []. repeat split; auto.
  - destruct IH as (m & n & o1 & H1 & H2 & H3 & H4 & H5).
    assert (o1 = []).
    { destruct o1 as [|c o1]; auto. exfalso. destruct Ho as [->| ->]; [discriminate|].
      injection H2 as <- _. apply H3. left; auto. }
    subst o1. cbn [app] in *. rewrite app_nil_r in H4.
    exists (m ++ [AUser u]), (n + match u with UCmp => 1 | _ => 0 end), (first_step (po_keep P x u) cs u).
    rewrite users_app, mexpand_app, awaited_app, H4, H5, H1. cbn [mstep fst snd]. repeat split.
    + rewrite calls_first, <- app_assoc, H2. f_equal. destruct u; cbn [app]; rewrite ?Nat.add_0_r; auto. rewrite Nat.add_1_r. auto.
    + apply first_no_cmp.
    + destruct u; cbn; f_equal; lia.
  - destruct IH as (m & n & o1 & H1 & H2 & H3 & H4 & H5). destruct o1 as [|c1 o1].
    + destruct n as [|n]; [discriminate|]. injection H2 as -> ->.
      exists (m ++ [ADone]), n, []. rewrite users_app, mexpand_app, awaited_app, H4, H5, H1. cbn.
      rewrite !app_nil_r. repeat split; auto.
    + injection H2 as <- ->. exists m, n, o1. rewrite H4, <- app_assoc. repeat split; auto.
      intros Y. apply H3. right; auto.
Qed.

(** *** What a subscriber is told, from that. *)
Lemma mstore m : opt_list (fst (mexpand m)) = reduced f (pushed (users m)).
Proof.
  induction m as [|[u|] m IH] using rev_ind; auto; rewrite mexpand_app, users_app, pushed_app; cbn [mstep fst users flat_map app pushed].
  - destruct u; cbn [pushed app]; rewrite ?app_nil_r; auto. apply keep_async; auto.
  - rewrite app_nil_r. auto.
Qed.
Lemma subs_first x cs u : subs_of (map shape (first_step x cs u)) = subs_of [u].
Proof. destruct u; auto. cbn [first_step]. rewrite subs_values. auto. Qed.
Lemma msubs m : subs_of (map shape (snd (mexpand m))) = subs_of (users m).
Proof.
  induction m as [|[u|] m IH] using rev_ind; auto; rewrite mexpand_app, users_app; cbn [mstep snd users flat_map app];
    rewrite map_app, !subs_app, IH; auto. f_equal. apply subs_first.
Qed.
Lemma finish_in_app (m1 m2 : list (acall A E)) : finish_in (m1 ++ m2) =
  match finish_in m1 with Some x => Some x | None => finish_in m2 end.
Proof. induction m1 as [|[[]|] m1 IH]; cbn; auto. Qed.
Lemma mfinish m : finish_of (map shape (snd (mexpand m))) = finish_in m.
Proof.
  induction m as [|[u|] m IH] using rev_ind; auto; rewrite mexpand_app, finish_in_app; cbn [mstep snd];
    rewrite map_app, finish_app', IH; destruct (finish_in m); auto.
  destruct u; auto. cbn [first_step]. destruct (po_keep _ _ _); auto.
Qed.

Fixpoint mcalls (p : option A * list (cmd A E)) (m : list (acall A E)) : list (cmd A E) :=
  match m with
  | [] => []
  | AUser u :: m' => first_step (po_keep P (fst p) u) (snd p) u ++ mcalls (mstep p (AUser u)) m'
  | ADone :: m' => KCmp :: mcalls (mstep p ADone) m'
  end.
Lemma mexpand_calls : forall m p, snd (fold_left mstep m p) = snd p ++ mcalls p m.
Proof.
  induction m as [|[u|] m IH]; intros p; cbn [fold_left mcalls].
  - now rewrite app_nil_r.
  - rewrite IH. cbn [mstep snd]. now rewrite <- app_assoc.
  - rewrite IH. cbn [mstep snd]. now rewrite <- app_assoc.
Qed.
Lemma mtold i : forall m p vs, opt_list (fst p) = reduced f vs ->
  told_after i (map shape (mcalls p m)) = told_in f i vs m.
Proof.
  induction m as [|[u|] m IH]; intros p vs H; auto; cbn [mcalls].
  destruct u; cbn [told_in].
  - cbn [first_step po_calls async app]. apply IH. apply (@keep_async A E f _ _ a H).
  - cbn. auto.
  - cbn [first_step po_keep async]. rewrite told_values, H. f_equal. apply IH. auto.
  - cbn. auto.
  - cbn [first_step po_calls async app map shape told_after]. apply IH. auto.
  - cbn [first_step po_calls async app map shape told_after]. rewrite (IH _ vs); auto.
Qed.

Theorem view_in : forall q m1 m2,
  vw_told (view_of q (subs_of (users m1)) (snd (mexpand (m1 ++ AUser USub :: m2)))) =
  upto q [] (match finish_in m1 with
             | None => told_in f (subs_of (users m1)) (pushed (users m1)) m2
             | Some (SE e) => [SE e]
             | Some x => map SN (reduced f (pushed (users m1))) ++ [x]
             end).
Proof.
  intros q m1 m2. unfold mexpand. rewrite fold_left_app. cbn [fold_left]. fold (mexpand m1). rewrite mexpand_calls.
  cbn [mstep snd first_step po_calls async po_keep]. rewrite mstore, <- app_assoc. cbn [app].
  rewrite finished_shape, failed_shape, mfinish. unfold errored. rewrite mfinish.
  rewrite view_closed_form by apply msubs. unfold told_late. rewrite mfinish.
  destruct (finish_in m1) as [[]|]; cbn [some andb negb map app]; auto.
  rewrite (@mtold _ _ _ (pushed (users m1))); auto. cbn [fst]. apply mstore.
Qed.

(** *** The subject. *)
Context (prog : nat -> list (sev A E) -> list (ucmd A E) * bool).
Context (ord : nat -> list nat -> list nat).
Context (ord_perm : forall k l, Permutation l (ord k l)).
Notation subject := (subject A E (po_store P)).
Implicit Types s : subject.
Notation J := (@J A E prog P).
Notation Q := (@Q A E prog P).
Definition Y s (owed : list (cmd A E)) : Prop := carried (sj_user s) (sj_store s) (sj_made s) owed.
Definition rest (o : list (cmd A E)) : Prop := o = [] \/ o = [KCmp].

Lemma Y_same : forall s s1 o, Y s o -> sj_user s1 = sj_user s -> sj_store s1 = sj_store s ->
  sj_made s1 = sj_made s -> Y s1 o.
Proof. unfold Y. intros s s1 o H H1 H2 H3. rewrite H1, H2, H3. auto. Qed.

Lemma Y_made : forall s s1 c o, Y s (c :: o) -> sj_user s1 = sj_user s -> sj_store s1 = sj_store s ->
  sj_made s1 = sj_made s ++ [c] -> Y s1 o.
Proof. unfold Y. intros s s1 c o H H1 H2 H3. rewrite H1, H2, H3. apply CaM. auto. Qed.

Lemma Y_inner : forall me s c o, Y s (c :: o) -> running s = true -> Y (inner_call prog me s c) o.
Proof. intros me s c o H Hr. destruct (@inner_made A E prog P me s c Hr) as (H1 & H2 & H3). eapply Y_made; eauto. Qed.

Lemma Y_inners : forall me cs s o, Y s (cs ++ o) -> running (fold_left (inner_call prog me) cs s) = true ->
  Y (fold_left (inner_call prog me) cs s) o.
Proof.
  induction cs as [|c cs IH]; cbn; intros s o H Hr; auto.
  pose proof (@inners_running A E prog P me cs _ Hr) as Hr1.
  apply IH; auto. apply Y_inner; auto. eapply inner_running; eauto.
Qed.

Lemma Y_with_user : forall i s u pre k o, J i s pre k -> Y s o -> rest o ->
  let x := po_keep P (sj_store s) u in
  Y (with_user s x u) (po_calls P x (sj_closed s) (some (sj_err s)) u ++ o).
Proof.
  intros i s u pre k o H HY Ho x. unfold Y. cbn [sj_user sj_store sj_made with_user].
  pose proof (closed_iff H) as Hc. pose proof (j_obs H) as Hob.
  unfold vw in *. rewrite view_end in *.
  replace (sj_closed s) with (finished (sj_made s)) by (unfold finished; auto).
  replace (some (sj_err s)) with (failed (sj_made s)).
  { apply CaU; auto. }
  unfold failed, obs_ok in *. destruct (first_end (sj_made s)) as [[e| |]|].
  - rewrite Hob. auto.
  - destruct Hob as [_ ->]. auto.
  - destruct Hob as (_ & _ & ->). auto.
  - destruct Hob as (_ & _ & -> & _). auto.
Qed.

Lemma Y_user : forall i me s u pre k o, J i s pre k -> Y s o -> rest o ->
  running (inner_user prog P me s u) = true -> Y (inner_user prog P me s u) o.
Proof.
  intros i me s u pre k o H HY Ho Hr. unfold inner_user in *. destruct (running s) eqn:Hrs; auto.
  apply Y_inners; auto. apply (@Y_with_user i s u pre k o H HY Ho).
Qed.

Lemma Y_users : forall i me us s pre k o, J i s pre k -> Y s o -> rest o ->
  running (fold_left (inner_user prog P me) us s) = true ->
  Y (fold_left (inner_user prog P me) us s) o.
Proof.
  induction us as [|u us IH]; cbn; intros s pre k o H HY Ho Hr; auto.
  pose proof (@users_running _ _ prog P me us _ Hr) as Hr1.
  eapply IH; eauto; [apply J_user; eauto|eapply Y_user; eauto].
Qed.

Lemma Y_tell : forall i j s e pre k o, i <> j -> J i s pre k -> Y s o -> rest o ->
  running (tell prog P s j e) = true -> Y (tell prog P s j e) o.
Proof.
  intros i j s e pre k o Hij H HY Ho Hr. unfold tell in *. destruct (_ && _); auto.
  eapply Y_users; eauto. apply J_event_other; eauto.
Qed.

Lemma Y_tells : forall i e l s pre k o, ~ In i l -> J i s pre k -> Y s o -> rest o ->
  running (fold_left (fun s i => tell prog P s i e) l s) = true ->
  Y (fold_left (fun s i => tell prog P s i e) l s) o.
Proof.
  induction l as [|j l IH]; cbn; intros s pre k o Hi H HY Ho Hr; auto.
  pose proof (@tells_running _ _ prog P _ _ _ Hr) as Hr1.
  assert (Hj : i <> j) by (intros ->; apply Hi; auto).
  eapply IH; eauto; [apply J_tell_other; eauto|eapply Y_tell; eauto].
Qed.

Lemma Y_broadcast : forall s e pre k o, (forall i, J i s pre k) -> Y s o -> rest o ->
  running (broadcast prog ord P s e) = true -> Y (broadcast prog ord P s e) o.
Proof.
  intros s e pre k o H HY Ho Hr. unfold broadcast in *.
  destruct (fresh_id (ord (sj_iter s) (sj_tbl s))) as [i Hi].
  eapply Y_tells; eauto. eapply J_frame; eauto.
Qed.

Lemma Y_mapply : forall s m pre k o, (forall i, J i s pre k) -> Y s o -> rest o ->
  running (mapply prog ord P s m) = true -> Y (mapply prog ord P s m) o.
Proof.
  intros s m pre k o H HY Ho Hr. destruct m; cbn [mapply] in *.
  - eapply Y_broadcast; eauto.
  - eapply Y_broadcast; eauto.
  - eapply Y_broadcast; eauto.
  - apply Y_same with (s := broadcast prog ord P s SU); auto. eapply Y_broadcast; eauto.
  - destruct (existsb (Nat.eqb i) (sj_tbl s)); auto.
    eapply Y_tell with (i := S i); eauto.
    apply J_drop; auto; rewrite inb_remove.
    + intros Z. apply andb_true_iff in Z. tauto.
    + replace (S i =? i) with false; [rewrite andb_true_r; auto|].
      symmetry. apply Nat.eqb_neq. lia.
  - eapply Y_same; [exact HY| | |]; auto.
Qed.

Lemma Y_one : forall s m l o, Q s (m :: l) [] -> Y s o -> rest o ->
  running (mapply_one prog ord P s m) = true -> Y (mapply_one prog ord P s m) o.
Proof.
  intros s m l o [(k & Hn & Hf & H) _] HY Ho Hr.
  unfold mapply_one in *. destruct (running s) eqn:Hrs; [|congruence].
  assert (HA : forall s1 pre k, (forall i, J i s1 pre k) -> Y s1 o ->
    running (with_flag (mapply prog ord P s1 MUns)) = true ->
    Y (with_flag (mapply prog ord P s1 MUns)) o).
  { intros s1 pre k1 Hj Hx Hrr.
    apply Y_same with (s := mapply prog ord P s1 MUns); auto. eapply Y_mapply; eauto. }
  destruct m as [a|e| | |j|j]; cbn zeta in *; cbn [is_terminal is_unsub orb] in *.
  - destruct (sj_flag s); auto. eapply Y_mapply; eauto.
  - destruct (sj_flag s) eqn:Hfl; [eapply HA; eauto|].
    assert (Hr1 : running (mapply prog ord P s (MErr e)) = true)
      by (apply (@mapply_running _ _ prog ord P _ MUns); exact Hr).
    destruct (@J_mapply _ _ prog ord ord_perm P _ _ _ _ Hn H) as (H1 & H2 & H3); auto; [discriminate|].
    eapply HA; eauto. eapply Y_mapply; eauto.
  - destruct (sj_flag s) eqn:Hfl; [eapply HA; eauto|].
    assert (Hr1 : running (mapply prog ord P s MCmp) = true)
      by (apply (@mapply_running _ _ prog ord P _ MUns); exact Hr).
    destruct (@J_mapply _ _ prog ord ord_perm P _ _ _ _ Hn H) as (H1 & H2 & H3); auto; [discriminate|].
    eapply HA; eauto. eapply Y_mapply; eauto.
  - destruct (sj_flag s) eqn:Hfl; [eapply Y_same; [exact HY| | |]; auto|].
    eapply HA; eauto.
  - destruct (sj_flag s); auto. eapply Y_mapply; eauto.
  - destruct (sj_shut s j) eqn:Hs; auto. destruct (sj_flag s) eqn:Hfl.
    + assert (Hadd : adds j ((MAdd j :: l) ++ sj_queue s) = S (adds j (l ++ sj_queue s))).
      { cbn. rewrite Nat.eqb_refl. auto. }
      pose proof (j_ok (H j)) as Z. rewrite Hf in Z by auto. apply okp_true in Z. lia.
    + eapply Y_mapply; eauto.
Qed.

Lemma Y_ones : forall ms s o, Q s ms [] -> Y s o -> rest o ->
  running (fold_left (mapply_one prog ord P) ms s) = true ->
  Y (fold_left (mapply_one prog ord P) ms s) o.
Proof.
  induction ms as [|m ms IH]; cbn; intros s o H HY Ho Hr; auto.
  pose proof (@ones_running _ _ prog ord P ms _ Hr) as Hr1.
  apply IH; auto; [apply Q_one; auto|eapply Y_one; eauto].
Qed.

Lemma Y_queue : forall n s o, Q s [] [] -> Y s o -> rest o -> running (mapply_queue prog ord P n s) = true ->
  Y (mapply_queue prog ord P n s) o.
Proof.
  induction n as [|n IH]; intros s o H HY Ho Hr.
  - cbn [mapply_queue] in *. destruct (running s) eqn:Z; [discriminate|congruence].
  - pose proof (@queue_running _ _ prog ord P _ _ Hr) as Hrs. rewrite queue_S in *. rewrite Hrs in *.
    destruct (sj_queue s) as [|m ms] eqn:Hq; [auto|].
    pose proof (@queue_running _ _ prog ord P _ _ Hr) as Hr2.
    assert (H1 : Q (with_queue s []) (m :: ms) []) by (rewrite <- Hq; apply Q_move; auto).
    apply IH; auto.
    + apply Q_clean. apply Q_ones; auto.
    + apply Y_same with (s := fold_left (mapply_one prog ord P) (m :: ms) (with_queue s [])); auto.
      apply Y_ones; auto.
Qed.

Lemma Y_try : forall s o, Q s [] [] -> Y s o -> rest o -> running (mtry_apply prog ord P s) = true ->
  Y (mtry_apply prog ord P s) o.
Proof.
  intros s o H HY Ho Hr. unfold mtry_apply in *. destruct (sj_queue s) eqn:Hq; auto.
  apply Y_queue; auto.
Qed.

Lemma Y_apply : forall s m o, Q s [m] [] -> (forall i, m <> MAdd i) -> Y s o -> rest o ->
  running (mtry_apply prog ord P (mapply prog ord P s m)) = true ->
  Y (mtry_apply prog ord P (mapply prog ord P s m)) o.
Proof.
  intros s m o H Hm HY Ho Hr. pose proof (@try_running _ _ prog ord P _ Hr) as Hr1.
  apply Y_try; auto; [apply Q_mapply; auto|].
  destruct H as [(k & Hn & Hf & H) _]. eapply Y_mapply; eauto.
Qed.

Lemma Y_outer : forall s c o, Q s [] [c] -> Y s (c :: o) -> rest o -> sj_queue s = [] ->
  running (outer_call prog ord P s c) = true -> Y (outer_call prog ord P s c) o.
Proof.
  intros s c o H HY Ho Hq Hr. unfold outer_call in *. destruct (running s) eqn:Hrs; [|congruence].
  assert (Hmd : mtry_apply prog ord P s = s) by (unfold mtry_apply; rewrite Hq; auto).
  assert (HM : Y (with_made s c) o) by (eapply Y_made; [exact HY| | |]; auto).
  destruct c as [a|e| | |r|j]; cbn zeta in *.
  - rewrite queue_nil in * by auto. change (running (with_made s (KNext a))) with (running s) in *.
    rewrite Hrs in *. change (sj_closed (with_made s (KNext a))) with (sj_closed s) in *.
    pose proof (@try_running _ _ prog ord P _ Hr) as Hr1.
    pose proof (@Q_inner _ _ prog P 0 s (KNext a) [] H Hrs) as X. unfold inner_call in X. rewrite Hrs in X.
    cbn zeta in X. change (sj_closed (with_made s (KNext a))) with (sj_closed s) in X.
    destruct (sj_closed s) eqn:Hc; [apply Y_try; auto|].
    assert (Hfl : sj_flag s = false).
    { unfold sj_closed in Hc. destruct (sj_flag s); auto. }
    unfold mdefer in X. cbn [sj_flag with_made] in X. rewrite Hfl in X. cbn [andb] in X.
    cbn [sj_queue with_made] in X. rewrite Hq in X. cbn [app] in X.
    apply Y_apply; auto; [|discriminate]. apply Q_queued; auto.
  - pose proof (@Q_inner _ _ prog P 0 s (KErr e) [] H Hrs) as X. unfold inner_call in X. rewrite Hrs in X.
    cbn zeta in X. change (sj_closed (with_made s (KErr e))) with (sj_closed s) in *.
    set (s1 := with_obs (with_made s (KErr e)) _ _ _) in *.
    assert (Hq1 : sj_queue s1 = []) by auto.
    assert (Hr1 : running s1 = true) by auto.
    assert (HM1 : Y s1 o) by (eapply Y_same; [exact HM| | |]; auto).
    rewrite (@queue_nil _ _ prog ord P _ Hq1) in *. rewrite Hr1 in *.
    destruct (sj_closed s) eqn:Hc; [apply Y_try; auto|].
    assert (Hfl : sj_flag s1 = false).
    { unfold sj_closed in Hc. change (sj_flag s1) with (sj_flag s). destruct (sj_flag s); auto. }
    unfold mdefer in X. rewrite Hfl, Hq1 in X. cbn [andb app] in X.
    apply Y_apply; auto; [|discriminate]. apply Q_queued; auto.
  - pose proof (@Q_inner _ _ prog P 0 s KCmp [] H Hrs) as X. unfold inner_call in X. rewrite Hrs in X.
    cbn zeta in X. change (sj_closed (with_made s KCmp)) with (sj_closed s) in *.
    set (s1 := with_obs (with_made s KCmp) _ _ _) in *.
    assert (Hq1 : sj_queue s1 = []) by auto.
    assert (Hr1 : running s1 = true) by auto.
    assert (HM1 : Y s1 o) by (eapply Y_same; [exact HM| | |]; auto).
    rewrite (@queue_nil _ _ prog ord P _ Hq1) in *. rewrite Hr1 in *.
    destruct (sj_closed s) eqn:Hc; [apply Y_try; auto|].
    assert (Hfl : sj_flag s1 = false).
    { unfold sj_closed in Hc. change (sj_flag s1) with (sj_flag s). destruct (sj_flag s); auto. }
    unfold mdefer in X. rewrite Hfl, Hq1 in X. cbn [andb app] in X.
    apply Y_apply; auto; [|discriminate]. apply Q_queued; auto.
  - pose proof (@Q_inner _ _ prog P 0 s KUns [] H Hrs) as X. unfold inner_call in X. rewrite Hrs in X.
    cbn zeta in X. change (sj_uns (with_made s KUns)) with (sj_uns s) in *.
    pose proof (@Q_outer _ _ prog ord ord_perm P s KUns H Hq) as HQ. unfold outer_call in HQ. rewrite Hrs in HQ.
    cbn zeta in HQ. change (sj_uns (with_made s KUns)) with (sj_uns s) in *.
    set (s1 := with_obs (with_made s KUns) _ _ _) in *.
    assert (Hq1 : sj_queue s1 = []) by auto.
    assert (Hr1 : running s1 = true) by auto.
    assert (HM1 : Y (with_flag s1) o) by (eapply Y_same; [exact HM| | |]; auto).
    rewrite (@queue_nil _ _ prog ord P _ Hq1) in *. rewrite Hr1 in *.
    pose proof (@try_running _ _ prog ord P _ Hr) as Hr2.
    destruct (sj_uns s) eqn:Hu; [apply Y_try; auto|].
    assert (Hj : exists k, NoDup (sj_tbl s1) /\ forall i, J i (with_flag s1) [MUns] k).
    { destruct (sj_flag s1) eqn:Hfl; unfold mdefer in X; rewrite Hfl, Hq1 in X; cbn [andb app sj_uns s1 with_obs negb] in X.
      - destruct X as [(k & X1 & X2 & X3) _]; auto. exists true. split; auto.
        rewrite X2 in X3 by auto. intros i. apply J_flag, J_cons_true; auto.
      - apply Q_queued in X; auto. destruct X as [(k & X1 & X2 & X3) _]; auto. exists k. split; auto.
        intros i. specialize (X3 i).
        assert (Hb : base P i (with_flag s1) k = base P i s1 k) by reflexivity.
        assert (Hv : vw prog P i (with_flag s1) = vw prog P i s1) by reflexivity.
        destruct X3. constructor; rewrite ?Hb, ?Hv; auto.
        rewrite Hq1 in j_end. cbn [app closes mclosing is_unsub orb] in j_end. rewrite orb_true_r in j_end. unfold obs_ok in *.
        destruct (vw_end (vw prog P i s1)) as [[]|]; auto. discriminate. }
    destruct Hj as (k & Hn & Hj).
    assert (HQ1 : Q (mapply prog ord P (with_flag s1) MUns) [] []).
    { destruct (@J_mapply _ _ prog ord ord_perm P (with_flag s1) MUns [] k) as (H1 & H2 & H3); auto; [discriminate|].
      split.
      - exists (k || true). split; auto. split; auto. intros _. apply orb_true_r.
      - eapply X_mapply; eauto. destruct H as [_ HX]. intros Z. specialize (HX Z). cbn in *.
        rewrite app_nil_r. exact HX. }
    apply Y_try; auto. eapply Y_mapply; eauto.
  - pose proof (@Q_inner _ _ prog P 0 s (KSub r) [] H Hrs) as X. unfold inner_call in X. rewrite Hrs in X.
    cbn zeta in X. change (sj_next_id (with_made s (KSub r))) with (sj_next_id s) in *.
    pose proof (@Y_inner 0 s (KSub r) o HY Hrs) as XY. unfold inner_call in XY. rewrite Hrs in XY. cbn zeta in XY.
    change (sj_next_id (with_made s (KSub r))) with (sj_next_id s) in *.
    set (j := sj_next_id s) in *.
    set (s1 := greet prog _ _ _) in *.
    assert (Hq1 : sj_queue s1 = []) by (unfold s1; rewrite greet_queue; auto).
    assert (Hm1 : mtry_apply prog ord P s1 = s1) by (unfold mtry_apply; rewrite Hq1; auto).
    rewrite Hm1 in *. destruct (running s1) eqn:Hr1; [|congruence].
    destruct (sj_closed s1) eqn:Hc; [auto|].
    rewrite (@queue_nil _ _ prog ord P _ Hq1) in *. rewrite Hr1 in *.
    assert (Hfl : sj_flag s1 = false).
    { unfold sj_closed in Hc. destruct (sj_flag s1); auto. }
    unfold mdefer in X. rewrite Hfl, Hq1 in X. cbn [andb app] in X.
    apply Q_queued in X; auto.
    apply Y_try; auto; [apply Q_add; auto|]. eapply Y_same; [exact XY| | |]; unfold mdefer; destruct (_ && _); auto.
  - pose proof (@Q_inner _ _ prog P (S j) s (KOff j) [] H Hrs) as X. unfold inner_call in X. rewrite Hrs in X.
    cbn zeta in X. replace (j =? S j) with false in X by (symmetry; apply Nat.eqb_neq; lia).
    cbn [negb andb] in X. cbn [sj_shut sj_taken sj_next_id with_made] in *.
    destruct (_ || _); [auto|].
    set (s1 := with_taken (with_made s (KOff j)) j) in *.
    assert (Hq1 : sj_queue s1 = []) by auto.
    assert (Hr1 : running s1 = true) by auto.
    assert (HM1 : Y s1 o) by (eapply Y_same; [exact HM| | |]; auto).
    rewrite (@queue_nil _ _ prog ord P _ Hq1) in *. rewrite Hr1 in *.
    unfold mdefer in X. destruct (sj_flag s1) eqn:Hfl; rewrite Hq1 in X; cbn [andb negb app] in X.
    + destruct X as [(k & X1 & X2 & X3) HX]; auto.
      assert (Hkt : k = true) by auto. subst k.
      apply (@Y_mapply s1 (MOff j) [MOff j] true); auto.
      intros i. apply J_cons_true; auto.
    + apply Q_queued in X; auto. destruct X as [(k & X1 & X2 & X3) HX]; auto.
      eapply Y_mapply; eauto.
Qed.

Lemma Y_outer_calls : forall cs s, Q s [] cs -> Y s cs -> sj_queue s = [] -> no_off cs ->
  (forall c cs', cs = c :: cs' -> rest cs') ->
  (single P -> exists c, cs = [c]) \/ (single P -> cs = []) ->
  running (fold_left (outer_call prog ord P) cs s) = true ->
  Y (fold_left (outer_call prog ord P) cs s) [].
Proof.
  induction cs as [|c cs IH]; intros s H HY Hq Hn Ho Hs Hr; auto.
  cbn in *. pose proof (@outers_running _ _ prog ord P _ _ Hr) as Hr1.
  assert (Hs1 : single P -> cs = []).
  { intros Z. destruct Hs as [Hs|Hs]; specialize (Hs Z); [destruct Hs as [c0 Hs]|]; congruence. }
  assert (H0 : Q s [] [c]).
  { destruct H as [H HX]. split; auto. intros Z. specialize (HX Z). rewrite (Hs1 Z) in HX. auto. }
  destruct (@Q_outer _ _ prog ord ord_perm P s c H0 Hq Hr1) as [H1 H2].
  apply IH; auto.
  - destruct H1 as [H1 HX]. split; auto. intros Z. rewrite (Hs1 Z). auto.
  - apply Y_outer; eauto.
  - apply H2. intros i ->. apply (Hn i). left. auto.
  - intros i Z. apply (Hn i). right. auto.
  - intros c1 cs1 ->. destruct (Ho _ _ eq_refl) as [Z|Z]; inversion Z; subst. left; auto.
Qed.

Lemma Y_outer_user : forall s u, Q s [] [] -> Y s [] -> sj_queue s = [] ->
  running (outer_user prog ord P s u) = true -> Y (outer_user prog ord P s u) [].
Proof.
  intros s u H HY Hq Hr. unfold outer_user in *. destruct (running s) eqn:Hrs; [|congruence].
  fold (some (sj_err s)) in *. cbn zeta in *.
  set (x := po_keep P (sj_store s) u) in *.
  pose proof (@Q_with_user _ _ prog P s u H) as HU. cbn zeta in HU. fold x in HU.
  assert (HV : Y (with_user s x u) (po_calls P x (sj_closed s) (some (sj_err s)) u)).
  { destruct H as [(k & _ & _ & H) _].
    pose proof (@Y_with_user 0 s u [] k [] (H 0) HY (or_introl eq_refl)) as Z. cbn zeta in Z.
    rewrite app_nil_r in Z. exact Z. }
  destruct (@polite_async A E f x (sj_closed s) (some (sj_err s)) u) as [Hn|[i Hi]].
  - assert (Hs : single P -> exists c, po_calls P x (sj_closed s) (some (sj_err s)) u = [c]).
    { intros Z. apply Z. }
    apply Y_outer_calls; auto.
    destruct u; cbn [po_calls async]; intros c cs' Z; try solve [inversion Z; subst; left; reflexivity].
    unfold rest. destruct x; cbn in Z; inversion Z; auto.
  - rewrite Hi in *. cbn [fold_left] in *. apply Y_outer; auto. left; auto.
Qed.

Lemma Y_outer_users : forall us s, Q s [] [] -> Y s [] -> sj_queue s = [] ->
  running (outer_users prog ord P s us) = true -> settles prog ord P s us ->
  Y (outer_users prog ord P s us) [].
Proof.
  induction us as [|u us IH]; intros s H HY Hq Hr Hs; auto.
  cbn in *. destruct Hs as [Hs1 Hs2]. pose proof (@outer_users_running _ _ prog ord P us _ Hr) as Hr1.
  apply IH; auto; [apply Q_user; auto; apply polite_async|apply Y_outer_user; auto].
Qed.

(** Subscribers that call back: the calls and the second steps in some order, and everybody is told
    what that order makes of it. *)
Theorem async_calm : forall us,
  calm prog ->
  let s := outer_users prog ord P (sj_new P) us in
  running s = true ->
  exists m, users m = sj_user s /\ awaited 0 m = Some 0 /\
    forall m1 m2, m = m1 ++ AUser USub :: m2 ->
    history s (subs_of (users m1)) =
    upto (fun h => snd (prog (subs_of (users m1)) h)) []
      (match finish_in m1 with
       | None => told_in f (subs_of (users m1)) (pushed (users m1)) m2
       | Some (SE e) => [SE e]
       | Some x => map SN (reduced f (pushed (users m1))) ++ [x]
       end).
Proof.
  intros us Hc s Hr.
  assert (Hs : settles prog ord P (sj_new P) us) by (apply calm_settles; auto; apply polite_async).
  assert (HY : Y s []) by (apply Y_outer_users; auto; [apply Q_new; auto|apply Ca0]).
  destruct (carried_marked HY) as (m & n & o1 & H1 & H2 & H3 & H4 & H5).
  symmetry in H2. apply app_eq_nil in H2. destruct H2 as [-> H2]. destruct n; [|discriminate].
  exists m. split; auto. split; auto. intros m1 m2 ->.
  transitivity (vw_told (view_of (fun h => snd (prog (subs_of (users m1)) h)) (subs_of (users m1)) (sj_made s))).
  { apply (@told_view _ _ prog ord ord_perm P us (subs_of (users m1)) (@polite_async _ _ f) Hr Hs). }
  rewrite app_nil_r in H4.
  replace (sj_made s) with (snd (mexpand (m1 ++ AUser USub :: m2))) by (rewrite H4; auto).
  apply view_in.
Qed.
End Async.
