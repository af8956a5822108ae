(** Proofs about [EvModel]: the world, apart from the scheduler. *)
From Verif Require Import Base SubscrModel SchedModel EvModel EvSpec.
Set Implicit Arguments.

Section World.
Variables A X : Type.
Notation K := (clos X).
Notation G := (world A).
Notation call := (ncall A Empty_set).
Variable down : list call -> bool * list (req K).
Hypothesis Hdown : fair_down down.
Notation stop := (fun l => fst (down l)).

(** *** The specification, one event at a time. *)
Inductive mode : Type := Wait | Hear | Over.
Definition next_mode (x : mode * bool) (e : lev A) : mode * bool :=
  match fst x, e with
  | Over, _ => x
  | Wait, LSpawn => (if snd x then Hear else Over, snd x)
  | Wait, LKill => (Wait, false)
  | Hear, LKill => (Over, false)
  | _, LUnsub => (Over, snd x)
  | _, _ => x
  end.
Definition emit (x : mode * bool) (e : lev A) : list call :=
  match fst x, e with
  | Wait, LSpawn => if snd x then [] else [Cmp]
  | Hear, LTrig a => [Nxt a]
  | Hear, LKill => [Cmp]
  | _, _ => []
  end.
Definition modes (b : bool) (l : list (lev A)) : mode * bool := fold_left next_mode l (Wait, b).
Lemma over_stays : forall l b, fold_left next_mode l (Over, b) = (Over, b).
Proof. induction l; cbn; auto. Qed.
Lemma hear_snoc : forall l e, let x := fold_left next_mode l (Hear, true) in hear (l ++ [e]) = hear l ++ emit x e.
Proof.
  induction l as [|a l IH]; intros e; cbn.
  - destruct e; auto.
  - destruct a; cbn; rewrite ?over_stays; cbn; try (rewrite IH); auto.
Qed.
Lemma heard_snoc : forall l b e, heard b (l ++ [e]) = heard b l ++ emit (modes b l) e.
Proof.
  unfold modes. induction l as [|a l IH]; intros b e; cbn.
  - destruct e; cbn; auto.
  - destruct a; cbn; auto.
    + destruct b; [apply hear_snoc|rewrite over_stays; reflexivity].
    + now rewrite over_stays.
Qed.
Lemma modes_snoc : forall l b e, modes b (l ++ [e]) = next_mode (modes b l) e.
Proof. intros. unfold modes. now rewrite fold_left_app. Qed.

Fixpoint fin (told l : list call) : bool :=
  match l with [] => false | c :: l' => stop (told ++ [c]) || fin (told ++ [c]) l' end.
Lemma until_snoc : forall l told c, until stop told (l ++ [c]) = until stop told l ++ if fin told l then [] else [c].
Proof.
  induction l as [|x l IH]; intros told c; cbn.
  - now destruct (fst _).
  - destruct (fst (down (told ++ [x]))); cbn; auto. now rewrite IH.
Qed.
Lemma fin_snoc : forall l told c, fin told (l ++ [c]) = fin told l || stop (told ++ l ++ [c]).
Proof.
  induction l as [|x l IH]; intros told c; cbn.
  - now rewrite orb_false_r.
  - rewrite IH, <- app_assoc. cbn. now rewrite orb_assoc.
Qed.
Lemma until_all : forall l told, fin told l = false -> until stop told l = l.
Proof.
  induction l as [|x l IH]; intros told H; cbn in *; auto. apply orb_false_iff in H. destruct H as [H1 H2]. now rewrite H1, IH.
Qed.

Arguments modes : simpl never.
Arguments spawns : simpl never.

(** *** The invariant; [cs] are the commands not applied yet. *)
Definition isSp (c : cmd A) : bool := match c with CSpawn => true | _ => false end.
Definition isDr (c : cmd A) : bool := match c with CDrop => true | _ => false end.
Definition nSp (l : list (cmd A)) : nat := length (filter isSp l).
Definition nDr (l : list (cmd A)) : nat := length (filter isDr l).
Lemma nSp_app : forall a b, nSp (a ++ b) = nSp a + nSp b. Proof. intros. unfold nSp. now rewrite filter_app, app_length. Qed.
Lemma nDr_app : forall a b, nDr (a ++ b) = nDr a + nDr b. Proof. intros. unfold nDr. now rewrite filter_app, app_length. Qed.

Record Wd (cs : list (cmd A)) (g : G) : Prop := {
  wd_sub : g_spawned g = true -> g_sub g = true;
  wd_un : g_spawned g = false -> nSp cs = 0 /\ g_sat g = SNone /\ g_dropped g = false;
  wd_sp : g_spawned g = true -> (nSp cs = 1 /\ g_sat g = SNone) \/ (nSp cs = 0 /\ g_sat g <> SNone);
  wd_nd : g_dropped g = false -> nDr cs = 0 /\ g_sat g <> SGone;
  wd_dr : g_dropped g = true -> g_sat g = SGone \/ exists c1 c2, cs = c1 ++ CDrop :: c2 /\ nSp c2 = 0;
  wd_cl : g_dropped g = true -> g_open g = false;
  wd_told : g_told g = until stop [] (heard true (g_log g));
  wd_open : g_open g = true -> modes true (g_log g) = (match g_sat g with SNone => Wait | _ => Hear end, g_alive g) /\ fin [] (heard true (g_log g)) = false;
  wd_shut : g_open g = false -> fst (modes true (g_log g)) = Over \/ fin [] (heard true (g_log g)) = true;
  wd_once : spawns (g_log g) = match g_sat g with SNone => 0 | _ => 1 end
}.

(** What an operation does to the flags, and asks of the scheduler. *)
Definition move (g g' : G) (rs : list (req K)) : Prop :=
  g_sub g' = g_sub g /\ g_spawned g' = g_spawned g /\ g_dropped g' = g_dropped g /\
  ((g_open g' = g_open g /\ Forall (@fair X) rs) \/
   (g_sub g = true /\ g_open g = true /\ g_open g' = false /\
    exists r1 r2, rs = r1 ++ teardown X ++ r2 /\ Forall (@fair X) r1 /\ Forall (@fair X) r2)).
Lemma move_refl : forall g, move g g [].
Proof. intros. unfold move. auto 10. Qed.
Lemma move_trans : forall g1 g2 g3 a b, move g1 g2 a -> move g2 g3 b -> move g1 g3 (a ++ b).
Proof.
  intros g1 g2 g3 a b (A1 & A2 & A3 & A4) (B1 & B2 & B3 & B4). unfold move. rewrite B1, B2, B3. split; [auto|]. split; [auto|]. split; [auto|].
  destruct A4 as [[P1 P2]|(P1 & P2 & P3 & r1 & r2 & P4 & P5 & P6)], B4 as [[Q1 Q2]|(Q1 & Q2 & Q3 & r3 & r4 & Q4 & Q5 & Q6)].
  - left. split; [congruence|]. apply Forall_app; auto.
  - right. split; [congruence|]. split; [congruence|]. split; [auto|]. exists (a ++ r3), r4. subst b. rewrite app_assoc. split; auto. split; auto. apply Forall_app; auto.
  - right. split; [auto|]. split; [auto|]. split; [congruence|]. exists r1, (r2 ++ b). subst a. rewrite <- !app_assoc. split; auto. split; auto. apply Forall_app; auto.
  - congruence.
Qed.

(** The destination is told something the specification says. *)
Lemma tell_move : forall c g g' rs, g_sub g = true -> tell down c g = (g', rs) -> move g g' rs.
Proof.
  intros c g g' rs Hs R. unfold tell in R. destruct (g_open g) eqn:Ho; [|injection R as <- <-; apply move_refl]. injection R as <- <-.
  unfold move. cbn. split; [auto|]. split; [auto|]. split; [auto|]. destruct (is_end c || _) eqn:Q; cbn.
  - right. split; [auto|]. split; [auto|]. split; [auto|]. exists (snd (down (g_told g ++ [c]))), []. split; [reflexivity|]. split; [apply Hdown|constructor].
  - left. rewrite app_nil_r. split; [auto|]. apply Hdown.
Qed.
Lemma tell_same : forall c g g' rs, tell down c g = (g', rs) ->
  g_sub g' = g_sub g /\ g_alive g' = g_alive g /\ g_cmds g' = g_cmds g /\ g_sat g' = g_sat g /\ g_spawned g' = g_spawned g /\ g_dropped g' = g_dropped g /\ g_log g' = g_log g.
Proof. intros c g g' rs R. unfold tell in R. destruct (g_open g); injection R as <- <-; repeat split. Qed.

(** [g] is as the invariant says except that [e] has just been noted and the destination is to be told
    what follows from it. *)
Lemma told_next : forall g0 g c e g' rs, 
  g_told g0 = until stop [] (heard true (g_log g0)) -> g_log g = g_log g0 ++ [e] -> g_told g = g_told g0 -> g_open g = g_open g0 ->
  (g_open g0 = true -> emit (modes true (g_log g0)) e = [c] /\ fin [] (heard true (g_log g0)) = false /\
     (is_end c = true -> fst (next_mode (modes true (g_log g0)) e) = Over)) ->
  (g_open g0 = false -> fst (modes true (g_log g0)) = Over \/ fin [] (heard true (g_log g0)) = true) ->
  tell down c g = (g', rs) ->
  g_told g' = until stop [] (heard true (g_log g')) /\
  (g_open g' = true -> is_end c = false /\ g_open g0 = true /\ fin [] (heard true (g_log g')) = false) /\
  (g_open g' = false -> fst (modes true (g_log g')) = Over \/ fin [] (heard true (g_log g')) = true).
Proof.
  intros g0 g c e g' rs Ht Hl Hg Ho H1 H2 R. unfold tell in R. rewrite Ho in R. destruct (g_open g0) eqn:Q.
  - destruct (H1 eq_refl) as (E1 & E2 & E3). injection R as <- <-. cbn [g_told g_open g_log with_told]. rewrite Hl, Hg, heard_snoc, E1, until_snoc, E2, fin_snoc, E2, modes_snoc. cbn [orb app].
    rewrite Ht, (until_all _ _ E2). split; [auto|]. destruct (is_end c) eqn:Ec; cbn.
    + split; [discriminate|]. auto.
    + destruct (fst (down _)) eqn:Ed; cbn; split; auto; discriminate.
  - injection R as <- <-. rewrite Hg, Ho, Hl, modes_snoc, heard_snoc. split.
    + destruct (H2 eq_refl) as [Z|Z].
      * destruct (modes true (g_log g0)) as [y b]. cbn in Z. subst y. cbn. rewrite app_nil_r. auto.
      * rewrite Ht. destruct (emit _ _) as [|x [|y l]] eqn:Em; [now rewrite app_nil_r|now rewrite until_snoc, Z, app_nil_r|].
        exfalso. unfold emit in Em. destruct (fst _), e; try destruct (snd _); discriminate.
    + split; [congruence|]. intros _. destruct (H2 eq_refl) as [Z|Z].
      * left. destruct (modes true (g_log g0)) as [y b]. cbn in Z. subst y. reflexivity.
      * right. destruct (emit _ _) as [|x l] eqn:Em; [now rewrite app_nil_r|].
        assert (l = []) by (unfold emit in Em; destruct (fst _), e; try destruct (snd _); congruence). subst l. now rewrite fin_snoc, Z.
Qed.
(** Nothing is to be told. *)
Lemma told_note : forall g0 e, 
  g_told g0 = until stop [] (heard true (g_log g0)) ->
  (g_open g0 = true -> emit (modes true (g_log g0)) e = []) ->
  (g_open g0 = true -> fin [] (heard true (g_log g0)) = false) ->
  (g_open g0 = false -> fst (modes true (g_log g0)) = Over \/ fin [] (heard true (g_log g0)) = true) ->
  g_told g0 = until stop [] (heard true (g_log g0 ++ [e])) /\
  (g_open g0 = true -> fin [] (heard true (g_log g0 ++ [e])) = false) /\
  (g_open g0 = false -> fst (modes true (g_log g0 ++ [e])) = Over \/ fin [] (heard true (g_log g0 ++ [e])) = true).
Proof.
  intros g0 e Ht H1 H2 H3. rewrite heard_snoc, modes_snoc. destruct (g_open g0).
  - rewrite (H1 eq_refl), app_nil_r. split; [auto|]. split; [auto|]. discriminate.
  - destruct (H3 eq_refl) as [Z|Z].
    + destruct (modes true (g_log g0)) as [y b]. cbn in Z. subst y. cbn. rewrite app_nil_r. split; [auto|]. split; [discriminate|auto].
    + assert (Hem : emit (modes true (g_log g0)) e = [] \/ exists c, emit (modes true (g_log g0)) e = [c]).
      { unfold emit. destruct (fst _), e; try destruct (snd _); eauto. }
      destruct Hem as [->|[c ->]].
      * rewrite app_nil_r. split; [auto|]. split; [discriminate|auto].
      * rewrite until_snoc, Z, app_nil_r, fin_snoc, Z. split; [auto|]. split; [discriminate|auto].
Qed.
Lemma spawns_snoc : forall (l : list (lev A)) e, spawns (l ++ [e]) = spawns l + match e with LSpawn => 1 | _ => 0 end.
Proof. intros. unfold spawns. rewrite filter_app, app_length. now destruct e. Qed.

Lemma unsub_Wd : forall cs g g' rs, Wd cs g -> unsub X g = (g', rs) -> Wd cs g' /\ move g g' rs /\ g_cmds g' = g_cmds g.
Proof.
  intros cs g g' rs H R. unfold unsub in R. destruct (g_sub g) eqn:Es; [|injection R as <- <-; split; [auto|split; [apply move_refl|auto]]].
  destruct (g_open g) eqn:Eo; [|injection R as <- <-; split; [auto|split; [apply move_refl|auto]]]. injection R as <- <-. split; [|split].
  - destruct (wd_open H Eo) as [O1 O2].
    assert (Em : emit (modes true (g_log g)) LUnsub = []) by (rewrite O1; destruct (g_sat g); auto).
    constructor; cbn; try apply H; auto.
    + rewrite heard_snoc, Em, app_nil_r. apply H.
    + discriminate.
    + intros _. left. rewrite modes_snoc, O1. destruct (g_sat g); auto.
    + rewrite spawns_snoc, Nat.add_0_r. apply H.
  - unfold move. cbn. split; [auto|]. split; [auto|]. split; [auto|]. right. split; [auto|]. split; [auto|]. split; [auto|]. exists [], []. auto.
  - reflexivity.
Qed.

Lemma with_sat_same : forall (g : G) v, g_sat g = v -> with_sat g v = g.
Proof. intros [] v H. cbn in *. now subst. Qed.
(** A command is applied. *)
Lemma apply_Wd : forall c cs g g' rs, Wd (c :: cs) g -> apply down c g = (g', rs) -> Wd cs g' /\ move g g' rs /\ g_cmds g' = g_cmds g.
Proof.
  intros c cs g g' rs H R. destruct c as [| |u].
  - (* CSpawn *)
    assert (Hsp : g_spawned g = true).
    { destruct (g_spawned g) eqn:Q; auto. destruct (wd_un H Q) as [Z _]. discriminate. }
    destruct (wd_sp H Hsp) as [[Z1 Z2]|[Z1 Z2]]; [|discriminate]. cbn in Z1. injection Z1 as Z1. fold (nSp cs) in Z1.
    assert (Hdr : forall s', g_dropped g = true -> s' = SGone \/ exists c1 c2, cs = c1 ++ CDrop :: c2 /\ nSp c2 = 0).
    { intros s' Q. right. destruct (wd_dr H Q) as [Y|(c1 & c2 & Y1 & Y2)]; [congruence|]. destruct c1 as [|x c1]; [discriminate|]. injection Y1 as _ ->. eauto. }
    assert (Ho : g_open g = true -> modes true (g_log g) = (Wait, g_alive g) /\ fin [] (heard true (g_log g)) = false) by (intros Q; destruct (wd_open H Q); rewrite Z2 in *; auto).
    cbn [apply] in R. destruct (g_alive g) eqn:Ea.
    + injection R as <- <-. destruct (@told_note g LSpawn (wd_told H)) as (T1 & T2 & T3).
      { intros Q. destruct (Ho Q) as [O _]. now rewrite O. } { apply Ho. } { apply (wd_shut H). }
      split; [|split; [unfold move; cbn; auto 10|reflexivity]]. constructor; cbn; auto; try apply H; try congruence.
      * intros _. right. split; [auto|discriminate].
      * intros Q. split; [|discriminate]. now destruct (wd_nd H Q).
      * intros Q. split; [|auto]. rewrite modes_snoc. destruct (Ho Q) as [-> _]. rewrite Ea. reflexivity.
      * rewrite spawns_snoc, (wd_once H), Z2. reflexivity.
    + set (g1 := note (with_sat g SLive) LSpawn) in *. destruct (tell_same _ _ R) as (S1 & S2 & S3 & S4 & S5 & S6 & S7).
      destruct (@told_next g g1 Cmp LSpawn g' rs (wd_told H) eq_refl eq_refl eq_refl) as (T1 & T2 & T3); auto.
      { intros Q. destruct (Ho Q) as [O1 O2]. rewrite O1. auto. } { apply (wd_shut H). }
      assert (Hm : move g1 g' rs) by (apply (@tell_move Cmp); auto; apply (wd_sub H Hsp)).
      split; [|split; [exact Hm|exact S3]].
      constructor; rewrite ?S1, ?S2, ?S4, ?S5, ?S6; cbn; auto; try apply H; try congruence.
      * intros _. right. split; [auto|discriminate].
      * intros Q. split; [|discriminate]. now destruct (wd_nd H Q).
      * intros Q. apply (wd_cl H) in Q. destruct (g_open g') eqn:Z; auto. destruct (T2 eq_refl) as [Y _]. discriminate.
      * intros Q. destruct (T2 Q) as [Y _]. discriminate.
      * rewrite S7. cbn. rewrite spawns_snoc, (wd_once H), Z2. reflexivity.
  - (* CDrop *)
    assert (Hdr : g_dropped g = true).
    { destruct (g_dropped g) eqn:Q; auto. destruct (wd_nd H Q) as [Z _]. discriminate. }
    assert (Ho := wd_cl H Hdr).
    assert (Hsp : g_spawned g = true).
    { destruct (g_spawned g) eqn:Q; auto. destruct (wd_un H Q) as (_ & _ & Z). congruence. }
    assert (Hsat : g_sat g = SNone -> exists c1 c2, cs = c1 ++ CDrop :: c2 /\ nSp c2 = 0).
    { intros Q. destruct (wd_sp H Hsp) as [[Z1 _]|[_ Z2]]; [|congruence]. change (nSp (CDrop :: cs)) with (nSp cs) in Z1.
      destruct (wd_dr H Hdr) as [Y|(c1 & c2 & Y1 & Y2)]; [congruence|]. destruct c1 as [|x c1]; [injection Y1 as Y1; subst c2; congruence|]. injection Y1 as _ ->. eauto. }
    assert (Hst : forall s', (g_sat g = SNone -> s' = SNone) -> (g_sat g <> SNone -> s' = SGone) -> Wd cs (with_sat g s')).
    { intros s' E1 E2. constructor; cbn; try apply H; auto; try congruence.
      - intros _. destruct (wd_sp H Hsp) as [[Z1 Z2]|[Z1 Z2]]; [left; split; [exact Z1|auto]|right; split; [exact Z1|rewrite (E2 Z2); discriminate]].
      - intros _. destruct (g_sat g) eqn:Q; [right; auto|left; apply E2; congruence|left; apply E2; congruence].
      - rewrite (wd_once H). destruct (g_sat g); [now rewrite E1|now rewrite E2|now rewrite E2]. }
    cbn [apply] in R. destruct (g_sat g) eqn:Q; [| |].
    + injection R as <- <-. split; [rewrite <- (with_sat_same _ Q); apply Hst; auto; congruence|]. split; [apply move_refl|auto].
    + unfold tell in R. cbn [with_sat g_open] in R. rewrite Ho in R. injection R as <- <-.
      split; [apply Hst; congruence|]. split; [|reflexivity]. unfold move. cbn. auto 10.
    + injection R as <- <-. split; [rewrite <- (with_sat_same _ Q); apply Hst; congruence|]. split; [apply move_refl|auto].
  - assert (H0 : Wd cs g).
    { constructor; try apply H. intros Q. destruct (wd_dr H Q) as [Y|(c1 & c2 & Y1 & Y2)]; auto. right.
      destruct c1 as [|x c1]; [discriminate|]. injection Y1 as _ ->. eauto. }
    clear H. rename H0 into H. destruct u as [a| |]; cbn [apply] in R.
    + (* an event *)
      destruct (g_alive g) eqn:Ea; [|injection R as <- <-; split; [auto|split; [apply move_refl|auto]]].
      assert (Hn : g_sat g <> SLive -> Wd cs (note g (LTrig a))).
      { intros Hs. assert (Hem : g_open g = true -> emit (modes true (g_log g)) (LTrig a) = [] /\ g_sat g = SNone).
        { intros Q. destruct (wd_open H Q) as [O _]. destruct (g_sat g) eqn:Qs; try congruence; [rewrite O; auto|].
          destruct (g_dropped g) eqn:Qd; [apply (wd_cl H) in Qd; congruence|]. destruct (wd_nd H Qd). congruence. }
        destruct (@told_note g (LTrig a) (wd_told H)) as (T1 & T2 & T3).
        { intros Q. now apply Hem. } { intros Q. apply (wd_open H Q). } { apply (wd_shut H). }
        constructor; cbn; auto; try apply H.
        - intros Q. split; [|auto]. rewrite modes_snoc. destruct (wd_open H Q) as [-> _]. destruct (Hem Q) as [_ ->]. reflexivity.
        - rewrite spawns_snoc, Nat.add_0_r. apply H. }
      destruct (g_sat g) eqn:Qs.
      * injection R as <- <-. split; [apply Hn; discriminate|]. split; [unfold move; cbn; auto 10|reflexivity].
      * set (g1 := note g (LTrig a)) in *. destruct (tell_same _ _ R) as (S1 & S2 & S3 & S4 & S5 & S6 & S7).
        assert (Hsp : g_spawned g = true) by (destruct (g_spawned g) eqn:Z; auto; destruct (wd_un H Z) as (_ & Y & _); congruence).
        destruct (@told_next g g1 (Nxt a) (LTrig a) g' rs (wd_told H) eq_refl eq_refl eq_refl) as (T1 & T2 & T3); auto.
        { intros Q. destruct (wd_open H Q) as [O1 O2]. rewrite O1, Qs. split; [reflexivity|]. split; [auto|discriminate]. } { apply (wd_shut H). }
        assert (Hm : move g1 g' rs) by (apply (@tell_move (Nxt a)); auto; apply (wd_sub H Hsp)).
        split; [|split; [exact Hm|exact S3]].
        constructor; rewrite ?S1, ?S2, ?S4, ?S5, ?S6; cbn; auto; try apply H.
        -- intros Q. apply (wd_cl H) in Q. destruct (g_open g') eqn:Z; auto. destruct (T2 eq_refl) as (_ & Y & _). congruence.
        -- intros Q. destruct (T2 Q) as (_ & Y1 & Y2). split; [|auto]. rewrite S7. cbn. rewrite modes_snoc. destruct (wd_open H Y1) as [-> _]. rewrite Qs. reflexivity.
        -- rewrite S7. cbn. rewrite spawns_snoc, Nat.add_0_r. apply H.
      * injection R as <- <-. split; [apply Hn; discriminate|]. split; [unfold move; cbn; auto 10|reflexivity].
    + (* the end of the entity *)
      destruct (g_alive g) eqn:Ea; [|injection R as <- <-; split; [auto|split; [apply move_refl|auto]]].
      assert (Hn : g_sat g <> SLive -> Wd cs (note (with_alive g false) LKill)).
      { intros Hs. assert (Hem : g_open g = true -> g_sat g = SNone).
        { intros Q. destruct (g_sat g) eqn:Qs; try congruence.
          destruct (g_dropped g) eqn:Qd; [apply (wd_cl H) in Qd; congruence|]. destruct (wd_nd H Qd). congruence. }
        destruct (@told_note g LKill (wd_told H)) as (T1 & T2 & T3).
        { intros Q. destruct (wd_open H Q) as [O _]. rewrite (Hem Q) in O. now rewrite O. } { intros Q. apply (wd_open H Q). } { apply (wd_shut H). }
        constructor; cbn; auto; try apply H.
        - intros Q. split; [|auto]. rewrite modes_snoc. destruct (wd_open H Q) as [-> _]. rewrite (Hem Q). reflexivity.
        - rewrite spawns_snoc, Nat.add_0_r. apply H. }
      destruct (g_sat g) eqn:Qs.
      * injection R as <- <-. split; [apply Hn; discriminate|]. split; [unfold move; cbn; auto 10|reflexivity].
      * set (g1 := note (with_alive g false) LKill) in *. destruct (tell_same _ _ R) as (S1 & S2 & S3 & S4 & S5 & S6 & S7).
        assert (Hsp : g_spawned g = true) by (destruct (g_spawned g) eqn:Z; auto; destruct (wd_un H Z) as (_ & Y & _); congruence).
        destruct (@told_next g g1 Cmp LKill g' rs (wd_told H) eq_refl eq_refl eq_refl) as (T1 & T2 & T3); auto.
        { intros Q. destruct (wd_open H Q) as [O1 O2]. rewrite O1, Qs. split; [reflexivity|]. split; [auto|reflexivity]. } { apply (wd_shut H). }
        assert (Hm : move g1 g' rs) by (apply (@tell_move Cmp); auto; apply (wd_sub H Hsp)).
        split; [|split; [exact Hm|exact S3]].
        constructor; rewrite ?S1, ?S2, ?S4, ?S5, ?S6; cbn; auto; try apply H.
        -- intros Q. apply (wd_cl H) in Q. destruct (g_open g') eqn:Z; auto. destruct (T2 eq_refl) as (_ & Y & _). congruence.
        -- intros Q. destruct (T2 Q) as (Y & _). discriminate.
        -- rewrite S7. cbn. rewrite spawns_snoc, Nat.add_0_r. apply H.
      * injection R as <- <-. split; [apply Hn; discriminate|]. split; [unfold move; cbn; auto 10|reflexivity].
    + eapply unsub_Wd; eauto.
Qed.
Lemma apply_all_Wd : forall cs g g' rs, Wd cs g -> apply_all down cs g = (g', rs) -> Wd [] g' /\ move g g' rs /\ g_cmds g' = g_cmds g.
Proof.
  induction cs as [|c cs IH]; intros g g' rs H R; cbn in R.
  - injection R as <- <-. split; [auto|]. split; [apply move_refl|auto].
  - destruct (apply down c g) as [g1 r1] eqn:E1. destruct (apply_all down cs g1) as [g2 r2] eqn:E2. injection R as <- <-.
    destruct (apply_Wd H E1) as (H1 & M1 & C1). destruct (IH _ _ _ H1 E2) as (H2 & M2 & C2). split; [auto|]. split; [eapply move_trans; eauto|congruence].
Qed.
Lemma Wd_cmds : forall cs cs' g, Wd cs g -> Wd cs (with_cmds g cs').
Proof. intros cs cs' g H. constructor; try apply H. Qed.
Lemma Wd_user : forall cs u g, Wd cs g -> Wd (cs ++ [CUser u]) g.
Proof.
  intros cs u g H. constructor; try apply H; rewrite ?nSp_app, ?nDr_app, ?Nat.add_0_r; cbn; rewrite ?Nat.add_0_r; try apply H.
  intros Q. destruct (wd_dr H Q) as [Z|(c1 & c2 & -> & Z)]; auto. right. exists c1, (c2 ++ [CUser u]). rewrite <- app_assoc. split; auto. rewrite nSp_app, Z. reflexivity.
Qed.
Lemma one_Wd : forall o g g' rs, Wd (g_cmds g) g -> fair_act o -> one o g = (g', rs) -> Wd (g_cmds g') g' /\ move g g' rs.
Proof.
  intros o g g' rs H Hf R. destruct o as [u| |r]; cbn in R.
  - injection R as <- <-. split; [|unfold move; cbn; auto 10]. cbn. apply Wd_cmds, Wd_user, H.
  - destruct (unsub_Wd H R) as (H1 & M1 & C1). rewrite C1. auto.
  - injection R as <- <-. split; [auto|]. unfold move. split; [auto|]. split; [auto|]. split; [auto|]. left. split; auto.
Qed.
Lemma many_Wd : forall l g g' rs, Wd (g_cmds g) g -> Forall (@fair_act A X) l -> many l g = (g', rs) -> Wd (g_cmds g') g' /\ move g g' rs.
Proof.
  induction l as [|o l IH]; intros g g' rs H Hf R; cbn in R.
  - injection R as <- <-. split; [auto|apply move_refl].
  - inversion Hf; subst. destruct (one o g) as [g1 r1] eqn:E1. destruct (many l g1) as [g2 r2] eqn:E2. injection R as <- <-.
    destruct (one_Wd _ H H2 E1) as (H1' & M1). destruct (IH _ _ _ H1' H3 E2) as (H2' & M2). split; [auto|eapply move_trans; eauto].
Qed.
(** The two tasks run. *)
Arguments nSp : simpl never.
Arguments nDr : simpl never.
Lemma spawn_Wd : forall g, Wd (g_cmds g) g -> g_sub g = true -> g_spawned g = false ->
  Wd (g_cmds (push g CSpawn)) (with_tasks (push g CSpawn) true (g_dropped g)).
Proof.
  intros g H Hs Hp. destruct (wd_un H Hp) as (U1 & U2 & U3). constructor; cbn; try apply H; auto; try congruence.
  - intros _. left. rewrite nSp_app, U1. auto.
  - intros _. rewrite nDr_app, Nat.add_0_r. now apply (wd_nd H).
Qed.
Lemma despawn_Wd : forall g, Wd (g_cmds g) g -> g_open g = false -> g_spawned g = true ->
  Wd (g_cmds (push g CDrop)) (with_tasks (push g CDrop) (g_spawned g) true).
Proof.
  intros g H Ho Hp. constructor; cbn; try apply H; auto; try congruence.
  - intros Q. rewrite nSp_app, Nat.add_0_r. now apply (wd_sp H).
  - intros _. right. exists (g_cmds g), []. auto.
Qed.
Lemma fresh_Wd : Wd [] fresh.
Proof. constructor; cbn; auto; try discriminate. intros _. split; [auto|discriminate]. Qed.
Lemma sub_Wd : forall cs g, Wd cs g -> Wd cs (with_sub g).
Proof. intros cs g H. constructor; try apply H. auto. Qed.
End World.
