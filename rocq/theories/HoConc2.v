(** Proofs about [HoModel]: the concurrent subscriber when no inner observable unsubscribes its
    subscriber without completing it. *)
From Coq Require Import NArith.
From Verif Require Import Base SubscrModel LifeModel CombModel HoModel HoSpec HoProofs HoConc.
Set Implicit Arguments.

Section Conc2.
Variables A E : Type.
Variable down : list (ncall A E) -> bool.
Variable L : nat.
Hypothesis HL : 1 <= L.
Notation st := (HoModel.st A E).
Notation cmd := (HoModel.cmd A E).
Notation step := (HoModel.step down (Concurrent L)).
Notation I1 := (HoConc.I1 down L).
Implicit Types (s : st) (K : list cmd).

(** Nothing has been decided yet. *)
Definition calm K s : Prop := shut s = false /\ top_closing K = false.

Fixpoint icok K : Prop :=
  match K with
  | [] => True
  | KInnerCompleted j :: K' => In (KUnsub j) K' /\ icok K'
  | _ :: K' => icok K'
  end.
Definition uns1 (c : cmd) : list nat := match c with KUnsub i => [i] | _ => [] end.
Definition uns K : list nat := flat_map uns1 K.
Lemma uns_app : forall K K', uns (K ++ K') = uns K ++ uns K'. Proof. intros. apply flat_map_app. Qed.
Lemma in_uns : forall i K, In i (uns K) <-> In (KUnsub i) K.
Proof.
  intros i K. unfold uns. rewrite in_flat_map. split.
  - intros (c & Hc & Hi). destruct c; cbn in Hi; try contradiction. destruct Hi as [<-|[]]; auto.
  - intros H. exists (KUnsub i). split; auto. now left.
Qed.
Lemma icok_app : forall K1 K, nic K1 = 0 -> icok K -> icok (K1 ++ K).
Proof.
  induction K1 as [|c K1 IH]; cbn [app icok]; intros K H1 H2; auto. rewrite nic_cons in H1.
  destruct c; cbn in H1; try lia; auto.
Qed.
Lemma icok_in : forall K j, icok K -> In (KInnerCompleted j) K -> In (KUnsub j) K.
Proof.
  induction K as [|c K IH]; cbn; intros j H Hj; [destruct Hj|]. destruct Hj as [->|Hj].
  - destruct H. auto.
  - right. apply IH; auto. destruct c; intuition.
Qed.
Lemma icok_tl : forall c K, icok (c :: K) -> icok K.
Proof. intros c K H. destruct c; cbn in H; intuition. Qed.

Record Cq K s : Prop := {
  c_order : exists n, n <= s_arrived s /\ (forall i, i_sub (s_inner s i) = true <-> i < n) /\
              pend K ++ map fst (s_queue s) = seq n (s_arrived s - n);
  c_prompt : s_queue s <> [] -> num liv s + nadv K + length (pend K) = L;
  c_unsub : forall i, In (KUnsub i) K -> i_completed (s_inner s i) = true;
  c_closed : forall i, i_closed (s_inner s i) = true -> i_completed (s_inner s i) = true;
  c_ic : icok K;
  c_nodup : NoDup (uns K);
  c_icnc : forall j, In (KInnerCompleted j) K -> i_closed (s_inner s j) = false;
  c_done : is_completed (s_up s) = true -> s_queue s = [] -> s_nc s <> 0
}.

Definition nouns (c : ncall A E) : bool := negb (is_uns c).
Definition civil1 (c : cmd) : bool :=
  match c with KCall _ m => nouns m | KCreate _ l => forallb nouns l | _ => true end.
Definition civil K s : Prop := forallb civil1 K = true /\ forallb (fun x => forallb nouns (snd x)) (s_queue s) = true.

(** All that has arrived has completed. *)
Lemma done_completed : forall s, mirror down s -> is_completed (s_up s) = true ->
  (forall i, i < s_arrived s -> i_sub (s_inner s i) = true) ->
  (forall i, i_closed (s_inner s i) = true -> i_completed (s_inner s i) = true) ->
  num liv s = 0 -> all_completed (s_tr s).
Proof.
  intros s M Hu Hs Hc Hl. split; [now rewrite <- (m_up M)|].
  intros i Hi. rewrite <- (m_arr M) in Hi. rewrite <- (m_cmp M).
  assert (Hi' := Hs i Hi). pose proof (@cnt_zero _ _ Hl i Hi) as Z. cbn beta in Z. unfold liv in Z. rewrite Hi' in Z.
  destruct (i_completed (s_inner s i)) eqn:Q; auto. cbn in Z. apply negb_false_iff in Z. now rewrite (Hc _ Z) in Q.
Qed.
Lemma all_sub : forall K s, Cq K s -> s_queue s = [] -> pend K = [] -> forall i, i < s_arrived s -> i_sub (s_inner s i) = true.
Proof.
  intros K s C Hq Hp i Hi. destruct (c_order C) as (n & Hn & Hs & Ho). rewrite Hp, Hq in Ho. cbn in Ho.
  assert (Hlen := f_equal (@length nat) Ho). rewrite seq_length in Hlen. cbn in Hlen. apply Hs. lia.
Qed.

(** Changes of the stack only. *)
Lemma Cq_stack : forall c K K1 s, Cq (c :: K) s -> lowly c = true -> pend K1 = [] -> nic K1 = 0 -> uns K1 = [] ->
  pend K = [] -> nadv K = 0 -> (s_queue s <> [] -> nadv K1 = 0) -> Cq (K1 ++ K) s.
Proof.
  intros c K K1 s [] Hl H1 H2 H3 T2 T3 H4. 
  assert (Hp : pend (c :: K) = []) by (rewrite pend_cons, T2; destruct c; try discriminate; auto).
  assert (Ha : nadv (c :: K) = 0) by (rewrite nadv_cons, T3; destruct c; try discriminate; auto).
  rewrite Hp, Ha in *.
  assert (U : forall i, In (KUnsub i) (K1 ++ K) -> In (KUnsub i) K).
  { intros i Hi. apply in_app_or in Hi. destruct Hi as [Hi|Hi]; auto. apply in_uns in Hi. rewrite H3 in Hi. destruct Hi. }
  constructor; rewrite ?pend_app, ?nadv_app, ?H1, ?T2, ?T3; auto.
  - intros Hq. rewrite H4 by auto. cbn [length app] in *. auto.
  - intros i Hi. apply c_unsub0. right. auto.
  - apply icok_app; auto. eapply icok_tl; eauto.
  - rewrite uns_app, H3. cbn. destruct c; cbn in c_nodup0; auto. now inversion c_nodup0.
  - intros j Hj. apply c_icnc0. right. apply in_app_or in Hj. destruct Hj as [Hj|Hj]; auto.
    exfalso. clear - H2 Hj. induction K1 as [|x K1 IH]; [destruct Hj|]. rewrite nic_cons in H2. destruct Hj as [->|Hj]; [discriminate|]. apply IH; auto. lia.
Qed.
Lemma Cq_same : forall K s s', s_inner s' = s_inner s -> s_arrived s' = s_arrived s -> s_queue s' = s_queue s ->
  s_nc s' = s_nc s -> is_completed (s_up s') = is_completed (s_up s) -> Cq K s -> Cq K s'.
Proof. intros K s s' H1 H2 H3 H4 H5 []. constructor; unfold num in *; rewrite ?H1, ?H2, ?H3, ?H4, ?H5; auto. Qed.

Lemma step_Cq : forall c K s s' K1, I1 (c :: K) s -> civil (c :: K) s -> Cq (c :: K) s -> calm (c :: K) s ->
  step c s = Some (s', K1) -> calm (K1 ++ K) s' -> Cq (K1 ++ K) s'.
Proof.
  intros c K s s' K1 H V C [Ks Kt] R [Ks' Kt']. destruct (I1_top H) as (T1 & T2 & T3).
  assert (F := j_fr H). apply Forall_inv in F.
  assert (Tn : s_torn s = false) by (destruct (s_torn s) eqn:Q; auto; apply (j_torn H) in Q; congruence).
  assert (Dn : is_closed (s_down s) = false) by (destruct (is_closed (s_down s)) eqn:Q; auto; destruct (j_down H Q); congruence).
  assert (NE : forall x, In x (c :: K) -> ends x = false).
  { intros x Hx. destruct (ends x) eqn:Q; auto. destruct (j_end H x Hx Q); congruence. }
  destruct c as [m| | | |i l|i m|i|i|i|i|i| |i| |i]; cbn [okf] in F;
    try (specialize (NE _ (or_introl eq_refl)); discriminate NE).
  - (* KTell *) cbn [HoModel.step] in R. change (t_shut (s_told s)) with (shut s) in R. rewrite Ks in R.
    set (s1 := log (with_told s (tell down m (s_told s))) (TOut m)) in *.
    assert (Es' : s' = s1 /\ K1 = (if shut s1 then [KTear] else [])) by (unfold shut; inversion R; auto).
    destruct Es' as [-> ->]. rewrite Ks'. cbn [app].
    assert (Q : Cq ([] ++ K) s).
    { destruct C. constructor; rewrite ?pend_cons, ?nadv_cons in *; cbn [app pend1 is_adv Nat.add] in *; auto.
      - intros i Hi. apply c_unsub0. now right.
      - intros i Hi. apply c_icnc0. now right. }
    revert Q. apply Cq_same; auto.
  - (* KAdvance *) cbn [HoModel.step] in R. destruct (s_queue s) as [|[i l] q] eqn:Eq; injection R as <- <-; cbn [app].
    + destruct C. constructor; rewrite ?pend_cons, ?nadv_cons, ?Eq in *; cbn [app pend1 is_adv Nat.add] in *; auto; try contradiction.
      * intros i Hi. apply c_unsub0. now right.
      * intros i Hi. apply c_icnc0. now right.
    + destruct C. rewrite pend_cons, nadv_cons, T2, T3 in *. cbn [app pend1 is_adv Nat.add length] in *.
      constructor; rewrite ?pend_cons, ?nadv_cons, ?T2, ?T3; cbn [app pend1 is_adv Nat.add length]; auto.
      * destruct c_order0 as (n & Hn & Hs & Ho). exists n. rewrite Eq in Ho. cbn in *. auto.
      * intros _. rewrite Eq in c_prompt0. change (num liv s + 0 + 1 = L). specialize (c_prompt0 ltac:(discriminate)). lia.
      * intros j [Hj|Hj]; [discriminate|]. apply c_unsub0. now right.
      * intros j [Hj|Hj]; [discriminate|]. apply c_icnc0. now right.
      * cbn. discriminate.
  - (* KCreate *) cbn [HoModel.step] in R. injection R as <- <-.
    set (v := mkInner true false false (length (s_slab s)) true true). set (s' := log _ _). set (K1 := map (KCall i) l ++ [KSubscribed i]).
    assert (Hw : i < s_arrived s /\ s_inner s i = no_inner) by (apply (j_wait H); rewrite pend_cons; now left). destruct Hw as [Hi Hno].
    assert (Hn : forall f, num f s' + (if f no_inner then 1 else 0) = num f s + (if f v then 1 else 0)).
    { intros f. rewrite <- Hno. apply (@cnt_inner f (s_arrived s) (s_inner s) i v Hi). }
    assert (Hlv := Hn liv). change (liv no_inner) with false in Hlv. change (liv v) with true in Hlv. cbv iota in Hlv.
    assert (HF : forallb (@lowly _ _) K1 = true) by apply forallb_calls.
    assert (P1 : pend (K1 ++ K) = []) by (rewrite pend_app, T2, app_nil_r; now apply lowly_pend).
    assert (P2 : nadv (K1 ++ K) = 0) by (rewrite nadv_app, T3, Nat.add_0_r; now apply lowly_nadv).
    assert (P4 : uns (K1 ++ K) = uns K).
    { rewrite uns_app. replace (uns K1) with (@nil nat); auto. unfold K1. rewrite uns_app. cbn [uns flat_map uns1 app]. rewrite app_nil_r. clear. induction l as [|m l IH]; auto. }
    assert (P3 : nic K1 = 0) by apply nic_calls.
    destruct C. rewrite pend_cons, nadv_cons, T2, T3 in *. cbn [app pend1 is_adv Nat.add length] in *.
    assert (Hin : forall j, s_inner s' j = if j =? i then v else s_inner s j) by reflexivity.
    constructor; rewrite ?P1, ?P2, ?P4; auto.
    + destruct c_order0 as (n & Hn' & Hs & Ho). change (s_arrived s') with (s_arrived s). change (s_queue s') with (s_queue s).
      assert (Hd : s_arrived s - n = S (s_arrived s - S n)) by (destruct (s_arrived s - n) eqn:Q; [discriminate|lia]).
      rewrite Hd in Ho. cbn in Ho. injection Ho as Hin' Ho. subst n. exists (S i). split; [lia|]. split; auto.
      intros j. rewrite Hin. destruct (j =? i) eqn:Ej.
      * apply Nat.eqb_eq in Ej. subst j. cbn. split; [lia|auto].
      * apply Nat.eqb_neq in Ej. rewrite Hs. lia.
    + intros Hq. specialize (c_prompt0 Hq). cbn [length]. lia.
    + intros j Hj. rewrite Hin. destruct (j =? i) eqn:Ej.
      * apply Nat.eqb_eq in Ej. subst j. apply in_uns in Hj. rewrite P4 in Hj. apply in_uns in Hj.
        specialize (c_unsub0 i (or_intror Hj)). rewrite Hno in c_unsub0. discriminate.
      * apply c_unsub0. right. apply in_uns. rewrite <- P4. now apply in_uns.
    + intros j. rewrite Hin. destruct (j =? i); [discriminate|auto].
    + apply icok_app; auto.
    + intros j Hj. rewrite Hin. destruct (j =? i); auto. apply c_icnc0. right. apply in_app_or in Hj. destruct Hj as [Hj|Hj]; auto.
      exfalso. unfold K1 in Hj. apply in_app_or in Hj. destruct Hj as [Hj|[Hj|[]]]; [|discriminate]. apply in_map_iff in Hj. destruct Hj as (? & ? & ?). discriminate.
  - (* KCall *) cbn [HoModel.step] in R. destruct (i_closed (s_inner s i)) eqn:Ec; [|destruct (i_sub (s_inner s i)) eqn:Es]; cbn [orb negb] in R.
    + injection R as <- <-. apply (@Cq_stack (KCall i m) K []); auto.
    + destruct m as [a|e| |].
      * injection R as <- <-. apply (@Cq_same _ s); auto. apply (@Cq_stack (KCall i (Nxt a)) K [KTell (Nxt a); KAfterNext i]); auto.
      * destruct (set_error _); [|discriminate]. injection R as <- <-. discriminate Kt'.
      * injection R as <- <-.
        assert (Hco : i_completed (s_inner s i) = false).
        { destruct (i_completed (s_inner s i)) eqn:Q; auto. destruct (j_comp H i Q) as [Z|Z]; [congruence|]. cbn in Z. rewrite Nat.eqb_refl in Z. discriminate. }
        change (i_oc (s_inner (log s (TIn i Cmp)) i)) with (i_oc (s_inner s i)).
        rewrite (j_oc H i Es), Hco. cbn [negb app]. assert (Hlt := j_sub H _ Es).
        set (v := s_inner s i) in *. set (s' := with_inner _ _ _).
        assert (Hlv : num liv s' + 1 = num liv s).
        { pose proof (@cnt_inner liv (s_arrived s) (s_inner s) i (set_completed v) Hlt) as Hn. fold v in Hn.
          assert (Z1 : liv v = true) by (unfold liv; now rewrite Es, Ec, Hco).
          assert (Z2 : liv (set_completed v) = false) by (unfold liv; cbn; now rewrite andb_false_r). rewrite Z1, Z2 in Hn.
          change (num liv s' + 1 = num liv s + 0) in Hn. lia. }
        assert (Hin : forall j, s_inner s' j = if j =? i then set_completed v else s_inner s j) by reflexivity.
        destruct C. rewrite pend_cons, nadv_cons, T2, T3 in *. cbn [app pend1 is_adv Nat.add length] in *.
        constructor; rewrite ?pend_cons, ?nadv_cons, ?T2, ?T3; cbn [app pend1 is_adv Nat.add length]; auto.
        -- destruct c_order0 as (n & Hn' & Hs & Ho). exists n. split; auto. split; auto. intros j. rewrite Hin, <- Hs.
           destruct (j =? i) eqn:Ej; [|tauto]. apply Nat.eqb_eq in Ej. subst j. fold v. cbn. tauto.
        -- intros Hq. specialize (c_prompt0 Hq). lia.
        -- intros j Hj. rewrite Hin. destruct (j =? i) eqn:Ej; auto. apply c_unsub0. right.
           destruct Hj as [Hj|[Hj|[Hj|Hj]]]; try discriminate; auto. injection Hj as ->. rewrite Nat.eqb_refl in Ej. discriminate.
        -- intros j. rewrite Hin. destruct (j =? i) eqn:Ej; auto.
        -- cbn. auto.
        -- cbn. constructor; auto. intros Hj. apply in_uns in Hj. specialize (c_unsub0 i (or_intror Hj)). fold v in c_unsub0. congruence.
        -- intros j Hj. rewrite Hin. destruct (j =? i) eqn:Ej; [exact Ec|]. apply c_icnc0. right.
           destruct Hj as [Hj|[Hj|[Hj|Hj]]]; try discriminate; auto. injection Hj as ->. rewrite Nat.eqb_refl in Ej. discriminate.
      * destruct V as [V _]. discriminate V.
    + injection R as <- <-. apply (@Cq_stack (KCall i m) K []); auto.
  - (* KAfterNext *) cbn [HoModel.step] in R. change (t_shut (s_told s)) with (shut s) in R. rewrite Ks in R. injection R as <- <-.
    apply (@Cq_stack (KAfterNext i) K []); auto.
  - (* KInnerCompleted *) cbn [HoModel.step] in R. destruct (s_nc s) as [|nc] eqn:En; [discriminate|].
    set (s1 := with_counts s nc (s_nu s)) in *. destruct (can_downstream_complete s1) eqn:Ed.
    + destruct (set_complete (s_down s1)); [|discriminate]. injection R as <- <-. discriminate Kt'.
    + injection R as <- <-. cbn [app]. destruct C. rewrite pend_cons, nadv_cons, T2, T3 in *. cbn [app pend1 is_adv Nat.add length] in *.
      constructor; rewrite ?T2, ?T3; auto.
      * intros j Hj. apply c_unsub0. now right.
      * cbn in c_ic0. tauto.
      * intros j Hj. apply c_icnc0. now right.
      * intros Hu Hq Hz. unfold can_downstream_complete, queue_empty in Ed. rewrite Hq, Hz, Hu in Ed. cbn in Ed, Dn. now rewrite Dn in Ed.
  - (* KUnsub *) cbn [HoModel.step] in R. unfold do_unsub in R. destruct (i_closed (s_inner s i)) eqn:Ec.
    { injection R as <- <-. destruct C. rewrite pend_cons, nadv_cons, T2, T3 in *. cbn [app pend1 is_adv Nat.add length] in *.
      constructor; rewrite ?T2, ?T3; auto.
      - intros j Hj. apply c_unsub0. now right.
      - now inversion c_nodup0.
      - intros j Hj. apply c_icnc0. now right. }
    assert (Hco := c_unsub C i (or_introl eq_refl)). rewrite Hco in R.
    destruct (minus_one (s_nu s)) as [nu|]; [|discriminate].
    set (fire := (_ && _)%bool) in R. set (v := s_inner s i) in *. injection R as <- <-. set (s' := with_counts _ _ _).
    set (K1 := if fire then [KOnUnsub i] else []). assert (Hlt := j_sub H _ F).
    assert (Hlv : num liv s' = num liv s).
    { pose proof (@cnt_inner liv (s_arrived s) (s_inner s) i (set_closed fire v) Hlt) as Hn. fold v in Hn.
      assert (Z1 : liv v = false) by (unfold liv; rewrite Hco; now rewrite andb_false_r).
      assert (Z2 : liv (set_closed fire v) = false) by (unfold liv; cbn; now rewrite andb_false_r). rewrite Z1, Z2 in Hn.
      change (num liv s' + 0 = num liv s + 0) in Hn. lia. }
    assert (Hin : forall j, s_inner s' j = if j =? i then set_closed fire v else s_inner s j) by reflexivity.
    assert (P1 : pend (K1 ++ K) = []) by (unfold K1; rewrite pend_app, T2; now destruct fire).
    assert (P2 : nadv (K1 ++ K) = 0) by (unfold K1; rewrite nadv_app, T3; now destruct fire).
    assert (P4 : uns (K1 ++ K) = uns K) by (unfold K1; rewrite uns_app; now destruct fire).
    destruct C. rewrite pend_cons, nadv_cons, T2, T3 in *. cbn [app pend1 is_adv Nat.add length] in *.
    cbn in c_nodup0. apply NoDup_cons_iff in c_nodup0. destruct c_nodup0 as [Hni Hnd].
    constructor; rewrite ?P1, ?P2, ?P4; auto.
    + destruct c_order0 as (n & Hn' & Hs & Ho). exists n. split; auto. split; auto. intros j. rewrite Hin, <- Hs.
      destruct (j =? i) eqn:Ej; [|tauto]. apply Nat.eqb_eq in Ej. subst j. fold v. cbn. tauto.
    + intros Hq. specialize (c_prompt0 Hq). cbn [length]. lia.
    + intros j Hj. rewrite Hin. destruct (j =? i) eqn:Ej; auto. apply c_unsub0. right. apply in_uns. rewrite <- P4. now apply in_uns.
    + intros j. rewrite Hin. destruct (j =? i) eqn:Ej; auto.
    + apply icok_app; auto. unfold K1. now destruct fire.
    + intros j Hj. assert (Hj' : In (KInnerCompleted j) K).
      { apply in_app_or in Hj. destruct Hj as [Hj|Hj]; auto. unfold K1 in Hj. destruct fire; [|destruct Hj]. destruct Hj as [Hj|[]]. discriminate. }
      rewrite Hin. destruct (j =? i) eqn:Ej; [|apply c_icnc0; now right]. exfalso. apply Nat.eqb_eq in Ej. subst j. apply Hni.
      apply in_uns. now apply icok_in.
  - (* KOnUnsub *) destruct F as [F1 F2]. cbn [HoModel.step] in R. injection R as <- <-. set (b := (_ && _)%bool) in *.
    assert (Hb : s_queue s <> [] -> b = false).
    { intros Hq. destruct b eqn:Eb; auto. exfalso. apply andb_true_iff in Eb. destruct Eb as [Hb _]. apply Nat.eqb_eq in Hb.
      destruct (j_slab H Tn) as [Z1 Z2]. specialize (Z2 i F1).
      replace (i_key (s_inner s i) <? length (s_slab s)) with true in Hb by (symmetry; apply Nat.ltb_lt; auto).
      assert (num liv s < num i_sub s).
      { apply (@cnt_lt _ _ _ i); auto; [|apply (j_sub H); auto|unfold liv; rewrite F2; apply andb_false_r].
        intros j _. unfold liv. destruct (i_sub (s_inner s j)); auto. }
      pose proof (c_prompt C Hq) as P. rewrite pend_cons, nadv_cons, T2, T3 in P. cbn in P. lia. }
    apply (@Cq_stack (KOnUnsub i) K); auto; try (now destruct b). intros Hq. rewrite (Hb Hq). reflexivity.
  - (* KOnUnsub2 *) injection R as <- <-. set (b := (_ && _)%bool) in *. destruct b; [discriminate Kt'|].
    apply (@Cq_stack KOnUnsub2 K []); auto.
  - (* KSubscribed *) cbn [HoModel.step] in R. destruct (i_closed (s_inner s i)) eqn:Ec.
    + injection R as <- <-. apply (@Cq_stack (KSubscribed i) K []); auto.
    + destruct (nth_error (s_slab s) (i_key (s_inner s i))) as [l|] eqn:En; injection R as <- <-.
      * apply (@Cq_same _ s); auto. apply (@Cq_stack (KSubscribed i) K []); auto.
      * exfalso. destruct (j_slab H Tn) as [Z1 Z2]. specialize (Z2 i F). apply nth_error_None in En. lia.
  - contradiction.
  - injection R as <- <-. apply (@Cq_same K s); auto. apply (@Cq_stack (KFree i) K []); auto.
Qed.

(** *** The whole. *)
Definition good2 (p : list (ev A E)) (e : ev A E) : Prop :=
  relays down (@all_completed A E) p e /\ in_order down p e /\ (L = 1 -> one_by_one down p e).
Definition just s (m : ncall A E) : Prop :=
  match m with
  | Cmp => all_completed (s_tr s)
  | Uns => outer_unsubscribed (s_tr s) = true
  | _ => exists q e, s_tr s = q ++ [e] /\ owed e = Some m
  end.
Record I2 K s : Prop := {
  k_one : I1 K s;
  k_civil : civil K s;
  k_cq : calm K s -> Cq K s;
  k_top : shut s = false -> forall m, tells m K -> just s m;
  k_tr : always good2 (s_tr s)
}.

Lemma lowly_tells : forall K m, forallb (@lowly A E) K = true -> tells m K -> False.
Proof. intros K m H [K' ->]. discriminate. Qed.
Lemma civil_tl : forall c K s, civil (c :: K) s -> civil K s.
Proof. intros c K s [H1 H2]. cbn in H1. apply andb_true_iff in H1. split; tauto. Qed.
Lemma civil_push : forall K1 K s s', forallb civil1 K1 = true -> s_queue s' = s_queue s \/ s_queue s' = [] -> civil K s -> civil (K1 ++ K) s'.
Proof. intros K1 K s s' H H' [H1 H2]. split; [now rewrite forallb_app, H, H1|]. destruct H' as [-> | ->]; auto. Qed.

Lemma step_civil : forall c K s s' K1, civil (c :: K) s -> step c s = Some (s', K1) -> civil (K1 ++ K) s'.
Proof.
  intros c K s s' K1 V R. assert (V' := civil_tl V). destruct V as [V1 V2]. cbn in V1. apply andb_true_iff in V1. destruct V1 as [V1 V3].
  assert (Un : forall i, do_unsub i s = Some (s', K1) -> civil (K1 ++ K) s').
  { intros i Hu. unfold do_unsub in Hu. destruct (i_closed (s_inner s i)); [inversion Hu; subst; auto|].
    destruct (minus_one (s_nu s)); [|discriminate]. destruct (if i_completed _ then _ else _); [|discriminate].
    inversion Hu; subst. (eapply civil_push; [| |exact V']; auto). now destruct (_ && _). }
  destruct c as [m| | | |i l|i m|i|i|i|i|i| |i| |i]; cbn [HoModel.step] in R.
  - destruct (t_shut (s_told s)); [inversion R; subst; auto|]. destruct (t_shut (s_told _)); inversion R; subst; (eapply civil_push; [| |exact V']; auto).
  - destruct (s_torn s); inversion R; subst; (eapply civil_push; [| |exact V']; auto). rewrite forallb_app. cbn. rewrite andb_true_r. clear. induction (concat _); auto.
  - inversion R; subst. (eapply civil_push; [| |exact V']; auto).
  - destruct (s_queue s) as [|[i l] q] eqn:Eq; inversion R; subst; auto. cbn in V2. apply andb_true_iff in V2. destruct V2 as [V2 V4].
    split; cbn; auto. now rewrite V2, V3.
  - inversion R; subst. (eapply civil_push; [| |exact V']; auto). rewrite forallb_app. cbn. rewrite andb_true_r. clear R Un. cbn in V1.
    induction l as [|m l IH]; auto. cbn in *. apply andb_true_iff in V1. destruct V1 as [V1 V4]. now rewrite V1, IH.
  - destruct (_ || _); [inversion R; subst; auto|]. destruct m as [a|e| |].
    + inversion R; subst. (eapply civil_push; [| |exact V']; auto).
    + destruct (set_error _); [|discriminate]. inversion R; subst. (eapply civil_push; [| |exact V']; auto).
    + inversion R; subst. (eapply civil_push; [| |exact V']; auto). now destruct (i_oc _).
    + discriminate.
  - destruct (t_shut _); inversion R; subst; (eapply civil_push; [| |exact V']; auto).
  - destruct (s_nc s); [discriminate|]. destruct (can_downstream_complete _); [destruct (set_complete _); [|discriminate]|]; inversion R; subst; (eapply civil_push; [| |exact V']; auto).
  - eauto.
  - destruct (existsb _ _); [inversion R; subst; auto|eauto].
  - inversion R; subst. (eapply civil_push; [| |exact V']; auto). now destruct (_ && _).
  - inversion R; subst. (eapply civil_push; [| |exact V']; auto). now destruct (_ && _).
  - destruct (i_closed _); [|destruct (nth_error _ _)]; inversion R; subst; (eapply civil_push; [| |exact V']; auto).
  - destruct (_ && _); inversion R; subst; auto. (eapply civil_push; [| |exact V']; auto). cbn. destruct (s_cur s); auto.
  - inversion R; subst; auto.
Qed.

(** Nothing makes a closed destination open. *)
Lemma do_unsub_told : forall i s s' K1, do_unsub i s = Some (s', K1) -> s_told s' = s_told s.
Proof.
  intros i s s' K1 R. unfold do_unsub in R. destruct (i_closed (s_inner s i)); [inversion R; subst; auto|].
  destruct (minus_one (s_nu s)); [|discriminate]. destruct (if i_completed _ then _ else _); [|discriminate]. inversion R; subst. auto.
Qed.
Lemma step_shut : forall c s s' K1, step c s = Some (s', K1) -> shut s = true -> shut s' = true.
Proof.
  intros c s s' K1 R H. unfold shut in *. destruct c as [m| | | |i l|i m|i|i|i|i|i| |i| |i]; cbn [HoModel.step] in R.
  - rewrite H in R. inversion R; subst; auto.
  - destruct (s_torn s); inversion R; subst; auto.
  - inversion R; subst; auto.
  - destruct (s_queue s) as [|[i l] q]; inversion R; subst; auto.
  - inversion R; subst; auto.
  - destruct (_ || _); [inversion R; subst; auto|]. destruct m; try (inversion R; subst; auto; fail). destruct (set_error _); inversion R; subst; auto.
  - rewrite H in R. inversion R; subst; auto.
  - destruct (s_nc s); [discriminate|]. destruct (can_downstream_complete _); [destruct (set_complete _); [|discriminate]|]; inversion R; subst; auto.
  - now rewrite (do_unsub_told _ _ R).
  - destruct (existsb _ _); [inversion R; subst; auto|]. now rewrite (do_unsub_told _ _ R).
  - inversion R; subst; auto.
  - inversion R; subst; auto.
  - destruct (i_closed _); [|destruct (nth_error _ _)]; inversion R; subst; auto.
  - destruct (_ && _); inversion R; subst; auto.
  - inversion R; subst; auto.
Qed.
Lemma step_calm : forall c K s s' K1, I1 (c :: K) s -> step c s = Some (s', K1) -> calm (K1 ++ K) s' -> calm (c :: K) s.
Proof.
  intros c K s s' K1 H R [H1 H2]. assert (Hs : shut s = false) by (destruct (shut s) eqn:Q; auto; rewrite (step_shut _ _ R Q) in H1; auto).
  split; auto. destruct c as [m| | | |i l|i m|i|i|i|i|i| |i| |i]; auto. cbn. destruct (is_closing m) eqn:Em; auto. exfalso.
  cbn [HoModel.step] in R. change (t_shut (s_told s)) with (shut s) in R. rewrite Hs in R.
  set (s1 := log (with_told s (tell down m (s_told s))) (TOut m)) in *.
  assert (Es' : s' = s1) by (inversion R; auto). subst s'. change (t_shut (tell down m (s_told s)) = false) in H1.
  destruct (tell_out down m (s_told s) Hs) as [_ T]. rewrite T, Em in H1. discriminate.
Qed.

Lemma mute_tr : forall c s s' K1, step c s = Some (s', K1) -> s_tr s' = s_tr s \/
  exists e, s_tr s' = s_tr s ++ [e] /\
    match e with
    | TOut m => c = KTell m /\ shut s = false
    | TSub i => exists l, c = KCreate i l
    | TIn i m => c = KCall i m /\ i_closed (s_inner s i) = false /\ i_sub (s_inner s i) = true
    | TEnd _ => True
    | _ => False
    end.
Proof.
  intros c s s' K1 R.
  assert (Un : forall i, do_unsub i s = Some (s', K1) -> s_tr s' = s_tr s \/ exists e, s_tr s' = s_tr s ++ [e] /\ e = TEnd i).
  { intros i Hu. unfold do_unsub in Hu. destruct (i_closed (s_inner s i)); [inversion Hu; subst; auto|].
    destruct (minus_one (s_nu s)); [|discriminate]. destruct (if i_completed _ then _ else _); [|discriminate]. inversion Hu; subst. right. exists (TEnd i). auto. }
  destruct c as [m| | | |i l|i m|i|i|i|i|i| |i| |i]; cbn [HoModel.step] in R.
  - unfold shut. destruct (t_shut (s_told s)) eqn:Q; inversion R; subst; auto. right. exists (TOut m). auto.
  - destruct (s_torn s); inversion R; subst; auto.
  - inversion R; subst; auto.
  - destruct (s_queue s) as [|[i l] q]; inversion R; subst; auto.
  - inversion R; subst; auto. right. exists (TSub i). eauto.
  - destruct (i_closed (s_inner s i)) eqn:Ec; [inversion R; subst; auto|]. destruct (i_sub (s_inner s i)) eqn:Es; [|inversion R; subst; auto]. cbn [orb negb] in R.
    right. exists (TIn i m). split; auto. destruct m; try (inversion R; subst; auto; fail). destruct (set_error _); inversion R; subst; auto.
  - destruct (t_shut (s_told s)); inversion R; subst; auto.
  - destruct (s_nc s); [discriminate|]. destruct (can_downstream_complete _); [destruct (set_complete _); [|discriminate]|]; inversion R; subst; auto.
  - destruct (Un _ R) as [Q|(e & Q & ->)]; auto. right. exists (TEnd i). auto.
  - destruct (existsb _ _); [inversion R; subst; auto|]. destruct (Un _ R) as [Q|(e & Q & ->)]; auto. right. exists (TEnd i). auto.
  - inversion R; subst; auto.
  - inversion R; subst; auto.
  - destruct (i_closed _); [|destruct (nth_error _ _)]; inversion R; subst; auto.
  - destruct (_ && _); inversion R; subst; auto.
  - inversion R; subst; auto.
Qed.

Lemma step_good2 : forall c K s s' K1, I2 (c :: K) s -> step c s = Some (s', K1) -> always good2 (s_tr s').
Proof.
  intros c K s s' K1 H R. assert (H1 := k_one H). assert (M := j_mir H1).
  destruct (mute_tr _ _ R) as [-> |(e & -> & He)]; [apply (k_tr H)|]. apply always_snoc; [apply (k_tr H)|].
  destruct e as [i|m|i|i m|i|m]; try contradiction; try (split; [exact I|split; [exact I|intros _; exact I]]).
  - (* TSub *) destruct He as [l ->]. split; [exact I|]. split; [|intros _; exact I]. intros Ho j Hj. apply (m_shut M) in Ho.
    assert (C : Cq (KCreate i l :: K) s) by (apply (k_cq H); split; auto).
    destruct (I1_top H1) as (T1 & T2 & T3). destruct (c_order C) as (n & Hn & Hs & Hl). rewrite pend_cons, T2 in Hl. cbn in Hl.
    destruct (s_arrived s - n) eqn:Q; [discriminate|]. cbn in Hl. injection Hl as -> _. rewrite <- (m_sub M). now apply Hs.
  - (* TIn *) destruct He as (-> & Hc & Hs). split; [exact I|]. split; [exact I|]. intros HL1 Ho j Hj. apply (m_shut M) in Ho.
    assert (C : Cq (KCall i m :: K) s) by (apply (k_cq H); split; auto).
    assert (Hco : i_completed (s_inner s i) = false).
    { destruct (i_completed (s_inner s i)) eqn:Q; auto. destruct (j_comp H1 i Q) as [Z|Z]; [congruence|]. cbn in Z. rewrite Nat.eqb_refl in Z. discriminate. }
    rewrite <- (m_cmp M). destruct (i_completed (s_inner s j)) eqn:Qj; auto. exfalso.
    destruct (c_order C) as (n & Hn & Hsn & _). assert (Hsj : i_sub (s_inner s j) = true) by (apply Hsn; apply Hsn in Hs; lia).
    assert (Hcj : i_closed (s_inner s j) = false) by (destruct (i_closed (s_inner s j)) eqn:Z; auto; apply (c_closed C) in Z; congruence).
    assert (Li : liv (s_inner s i) = true) by (unfold liv; now rewrite Hs, Hco, Hc).
    assert (Lj : liv (s_inner s j) = true) by (unfold liv; now rewrite Hsj, Qj, Hcj).
    pose proof (j_lim H1 Ho) as Hlim.
    assert (Hi := j_sub H1 _ Hs). assert (Hj' := j_sub H1 _ Hsj).
    pose proof (@cnt_set (fun x => liv (s_inner s x)) (fun x => if x =? i then false else liv (s_inner s x)) (s_arrived s) i Hi) as Z.
    cbn beta in Z. rewrite Nat.eqb_refl, Li in Z. specialize (Z (fun x Hx => ltac:(apply Nat.eqb_neq in Hx; now rewrite Hx))).
    assert (0 < cnt (fun x => if x =? i then false else liv (s_inner s x)) (s_arrived s)).
    { apply (@cnt_pos _ _ j); auto. replace (j =? i) with false; auto. symmetry. apply Nat.eqb_neq. lia. }
    unfold num in Hlim. lia.
  - (* TOut *) destruct He as [-> Hs]. split; [|split; [exact I|intros _; exact I]].
    assert (J := k_top H Hs (ex_intro _ K eq_refl)). split; [now apply (m_shut M)|]. destruct m; auto.
Qed.

Lemma step_top : forall c K s s' K1, I2 (c :: K) s -> step c s = Some (s', K1) -> shut s' = false -> forall m, tells m (K1 ++ K) -> just s' m.
Proof.
  intros c K s s' K1 H R Hs m Ht. assert (H1 := k_one H).
  destruct (I1_top H1) as (T1 & T2 & T3). assert (NT := fun m => @lowly_tells K m T1).
  assert (Hs0 : shut s = false) by (destruct (shut s) eqn:Q; auto; rewrite (step_shut _ _ R Q) in Hs; auto).
  assert (Un : forall i, do_unsub i s = Some (s', K1) -> False).
  { intros i Hu. unfold do_unsub in Hu. destruct (i_closed (s_inner s i)); [inversion Hu; subst; apply (NT m); auto|].
    destruct (minus_one (s_nu s)); [|discriminate]. destruct (if i_completed _ then _ else _); [|discriminate]. inversion Hu; subst.
    destruct (_ && _); [destruct Ht as [? Ht]; discriminate|apply (NT m); auto]. }
  assert (Dn : lowly c = true -> is_closed (s_down s) = false /\ is_errored (s_up s) = false).
  { intros Hl. assert (Htc : top_closing (c :: K) = false) by (destruct c; try discriminate; auto). destruct (quiet H1 Htc) as (_ & Q2 & Q3). split.
    - destruct (is_closed (s_down s)); auto. rewrite Q2 in Hs0; auto.
    - destruct (is_errored (s_up s)); auto. rewrite Q3 in Hs0; auto. }
  assert (F := j_fr H1). apply Forall_inv in F.
  destruct c as [m'| | | |i l|i m'|i|i|i|i|i| |i| |i]; cbn [HoModel.step] in R.
  - change (t_shut (s_told s)) with (shut s) in R. rewrite Hs0 in R. set (s1 := log (with_told s (tell down m' (s_told s))) (TOut m')) in *.
    assert (Es' : s' = s1 /\ K1 = (if shut s1 then [KTear] else [])) by (unfold shut; inversion R; auto). destruct Es' as [-> ->].
    rewrite Hs in Ht. destruct (NT m); auto.
  - destruct (s_torn s); inversion R; subst; [destruct (NT m); auto|]. destruct Ht as [? Ht]. cbn [s_slab with_torn] in Ht. destruct (concat _); discriminate.
  - inversion R; subst. destruct (NT m); auto.
  - destruct (s_queue s) as [|[i l] q]; inversion R; subst; [destruct (NT m); auto|]. destruct Ht as [? Ht]; discriminate.
  - inversion R; subst. destruct Ht as [? Ht]. destruct l; discriminate.
  - destruct (_ || _); [inversion R; subst; destruct (NT m); auto|]. destruct m' as [a|e| |].
    + inversion R; subst. destruct Ht as [? Ht]. injection Ht as <- _. exists (s_tr s), (TIn i (Nxt a)). auto.
    + destruct (set_error _); [|discriminate]. inversion R; subst. destruct Ht as [? Ht]. injection Ht as <- _. exists (s_tr s), (TIn i (Err e)). auto.
    + inversion R; subst. destruct Ht as [? Ht]. exfalso. revert Ht. destruct (i_oc _); discriminate.
    + inversion R; subst. destruct Ht as [? Ht]. discriminate.
  - change (t_shut (s_told s)) with (shut s) in R. rewrite Hs0 in R. inversion R; subst. destruct (NT m); auto.
  - destruct (s_nc s) as [|nc] eqn:En; [discriminate|]. set (s1 := with_counts s nc (s_nu s)) in *.
    destruct (can_downstream_complete s1) eqn:Ed; [|inversion R; subst; destruct (NT m); auto].
    destruct (set_complete _); [|discriminate]. inversion R; subst. destruct Ht as [? Ht]. injection Ht as <- _.
    assert (C : Cq (KInnerCompleted i :: K) s) by (apply (k_cq H); split; auto).
    unfold can_downstream_complete, queue_empty in Ed. cbn in Ed. rewrite !andb_true_iff in Ed. destruct Ed as [[[E1 E2] E3] E4].
    assert (Hq : s_queue s = []) by (destruct (s_queue s); [auto|discriminate]). apply Nat.eqb_eq in E2.
    assert (Hp : pend (KInnerCompleted i :: K) = []) by (now rewrite pend_cons, T2).
    pose proof (j_nc H1) as Hnc. rewrite nic_cons, Hp in Hnc. cbn [is_ic length] in Hnc.
    cbn [just]. change (all_completed (s_tr s)). apply done_completed; auto; [apply (j_mir H1)|now apply (all_sub C)|apply (c_closed C)|lia].
  - destruct (Un _ R).
  - destruct (existsb _ _); [inversion R; subst; destruct (NT m); auto|destruct (Un _ R)].
  - inversion R; subst. exfalso. destruct Ht as [? Ht]. revert Ht. destruct (_ && _); discriminate.
  - (* KOnUnsub2 *) destruct (Dn eq_refl) as [D1 D2]. inversion R; subst. clear R. exfalso.
    destruct (can_downstream_unsubscribe s') eqn:Ec; [|apply (NT m); auto].
    assert (C : Cq (KOnUnsub2 :: K) s') by (apply (k_cq H); split; auto).
    unfold can_downstream_unsubscribe, queue_empty in Ec. rewrite D1, D2, !orb_false_r in Ec. rewrite !andb_true_iff in Ec. destruct Ec as [[[E1 E2] E3] E4].
    assert (Hq : s_queue s' = []) by (destruct (s_queue s'); [auto|discriminate]). apply Nat.eqb_eq in E2.
    destruct (j_upuns H1 E3) as [Q|Q]; [|congruence]. pose proof (c_done C Q Hq) as Hnz.
    assert (Hp : pend (KOnUnsub2 :: K) = []) by (now rewrite pend_cons, T2).
    pose proof (j_nc H1) as Hnc. pose proof (j_nu H1) as Hnu. rewrite Hp in Hnc, Hnu. cbn [length] in *.
    assert (Hlo : num liv s' <= num ope s').
    { apply cnt_le. intros j _. unfold liv, ope. destruct (i_sub (s_inner s' j)), (i_completed (s_inner s' j)), (i_closed (s_inner s' j)); auto. }
    assert (Hx : exists j, In (KInnerCompleted j) (KOnUnsub2 :: K)).
    { assert (Hic : nic (KOnUnsub2 :: K) <> 0) by lia. clear - Hic. induction (KOnUnsub2 :: K) as [|c l IH]; [now destruct Hic|].
      rewrite nic_cons in Hic. destruct (is_ic c) eqn:Q; [destruct c; try discriminate; eexists; left; reflexivity|]. destruct (IH Hic) as [j Hj]. exists j. now right. }
    destruct Hx as [j Hj]. assert (Hjs := proj1 (Forall_forall _ _) (j_fr H1) _ Hj). cbn in Hjs. destruct Hjs as [Hjs _].
    pose proof (c_icnc C _ Hj) as Hjc. pose proof (j_sub H1 _ Hjs) as Hja.
    assert (0 < num ope s') by (apply (@cnt_pos _ _ j); auto; unfold ope; now rewrite Hjs, Hjc). lia.
  - destruct (i_closed _); [|destruct (nth_error _ _)]; inversion R; subst; try (destruct (NT m); auto; fail). destruct Ht as [? Ht]. discriminate.
  - destruct F.
  - inversion R; subst. destruct (NT m); auto.
Qed.

Lemma step_I2 : forall c K s s' K1, I2 (c :: K) s -> step c s = Some (s', K1) -> I2 (K1 ++ K) s'.
Proof.
  intros c K s s' K1 H R. constructor.
  - eapply step_I1; eauto. apply H.
  - eapply step_civil; eauto. apply H.
  - intros Hc. assert (Hc' := step_calm (k_one H) R Hc). eapply step_Cq; eauto; apply H; auto.
  - eapply step_top; eauto.
  - eapply step_good2; eauto.
Qed.

Definition act_ok (a : act A E) : bool :=
  match a with AArrive l => forallb nouns l | AInner _ c => nouns c | _ => true end.

Lemma perform_I2 : forall a s s' K, I2 [] s -> act_ok a = true -> perform (Concurrent L) a s = Some (s', K) -> I2 K s'.
Proof.
  intros a s s' K H Ha R. assert (H1 := k_one H). assert (H1' := perform_I1 HL a H1 R).
  destruct (k_civil H) as [_ V]. assert (M := j_mir H1).
  assert (TR : forall e, match e with TArrive _ | TUp _ => True | _ => False end -> always good2 (s_tr s ++ [e])).
  { intros e He. apply always_snoc; [apply (k_tr H)|]. destruct e; try contradiction; split; try exact I; split; try exact I; intros _; exact I. }
  assert (NT : forall m, tells m (@nil cmd) -> False) by (intros m [? Q]; discriminate).
  destruct (is_torn (Concurrent L) s) eqn:Et.
  { destruct a as [l|e| | |i c]; cbn [perform] in R; rewrite ?Et in R; try (inversion R; subst; auto; fail).
    destruct (_ || _); inversion R; subst; auto.
    assert (Hs : shut s = true) by (cbn in Et; apply orb_true_iff in Et; destruct Et as [Et|Et]; auto; now apply (j_torn H1)).
    constructor; auto.
    - split; [cbn in *; now rewrite Ha|]. auto.
    - intros [Q _]. change (shut s = false) in Q. congruence.
    - intros Q. change (shut s = false) in Q. congruence.
    - apply (k_tr H). }
  assert (Et' := Et). cbn in Et'. apply orb_false_iff in Et'. destruct Et' as [Es Et'].
  assert (C : Cq [] s) by (apply (k_cq H); split; auto).
  assert (Dn : is_closed (s_down s) = false) by (destruct (is_closed (s_down s)) eqn:Q; auto; destruct (j_down H1 Q); unfold shut in *; [congruence|discriminate]).
  assert (Nc : s_nc s = num liv s) by (rewrite (j_nc H1); unfold nic, pend; cbn; lia).
  destruct a as [l|e| | |i c]; cbn [perform] in R; rewrite ?Et in R.
  - set (i := s_arrived s) in *. cbv zeta in R. set (s1 := log (with_arrived s (S i)) (TArrive i)) in *.
    assert (Hno : s_inner s i = no_inner).
    { apply (j_none H1). destruct (i_sub (s_inner s i)) eqn:Q; auto. apply (j_sub H1) in Q. unfold i in Q. lia. }
    assert (Hlv : num liv s1 = num liv s).
    { unfold num. cbn [s_arrived s1 log with_arrived s_inner]. rewrite cnt_S. fold i. rewrite Hno. cbn. lia. }
    change (s_nc s1) with (s_nc s) in R. destruct (s_nc s <? L) eqn:En; inversion R; subst; clear R.
    + apply Nat.ltb_lt in En.
      assert (Hq : s_queue s = []).
      { destruct (s_queue s) as [|x q] eqn:Q; auto. exfalso. pose proof (c_prompt C) as P. rewrite Q in P. specialize (P ltac:(discriminate)). unfold nadv, pend in P. cbn in P. lia. }
      constructor; auto.
      * split; [cbn; cbn in Ha; now rewrite Ha|exact V].
      * intros _. destruct C. constructor; auto; try (cbn; constructor; fail).
        -- destruct c_order0 as (n & Hn & Hs & Ho). rewrite Hq in Ho. cbn in Ho. assert (Hlen := f_equal (@length nat) Ho). rewrite seq_length in Hlen. cbn in Hlen.
           exists i. cbn [s_arrived s1 with_counts log with_arrived s_queue s_inner]. split; [lia|]. split.
           ++ intros j. rewrite Hs. unfold i. lia.
           ++ rewrite Hq. replace (S i - i) with 1 by lia. reflexivity.
        -- cbn [s_queue s1 with_counts log with_arrived]. rewrite Hq. intros Q. now destruct Q.
        -- intros j [Q|[]]. discriminate.
        -- intros j [Q|[]]. discriminate.
        -- intros _ _. cbn. discriminate.
      * intros _ m [? Q]. discriminate.
      * apply TR. exact I.
    + apply Nat.ltb_ge in En. pose proof (j_lim H1 Es) as Hlim. unfold nadv, pend in Hlim. cbn in Hlim.
      constructor; auto.
      * split; auto. cbn. rewrite forallb_app. cbn in Ha. cbn. now rewrite V, Ha.
      * intros _. destruct C. constructor; auto.
        -- destruct c_order0 as (n & Hn & Hs & Ho). exists n. cbn [s_arrived s1 with_queue log with_arrived s_queue s_inner]. fold i in Hn, Ho. split; [lia|]. split; auto.
           rewrite map_app. cbn [map fst]. replace (S i - n) with (S (i - n)) by lia. rewrite seq_S. cbn [pend flat_map app] in *. unfold pend in *. cbn [flat_map app] in *. rewrite Ho.
           now replace (n + (i - n)) with i by lia.
        -- intros _. unfold nadv, pend. cbn [filter flat_map length]. change (num liv s1 + 0 + 0 = L). lia.
        -- intros _ Q. cbn in Q. destruct (s_queue s); discriminate.
      * intros _ m Q. destruct (NT _ Q).
      * apply TR. exact I.
  - destruct (set_error _); [|discriminate]. inversion R; subst; clear R. constructor; auto.
    + split; auto.
    + intros [_ Q]. discriminate.
    + intros _ m [? Q]. injection Q as <- _. exists (s_tr s), (TUp (Err e)). auto.
    + apply TR. exact I.
  - destruct (set_complete _) as [u|] eqn:Eu; [|discriminate]. destruct (set_unsubscribe u) as [u'|] eqn:Eu'; [|discriminate].
    set (s2 := with_up (log s (TUp Cmp)) u') in *. destruct (can_downstream_complete s2) eqn:Ed; inversion R; subst; clear R; constructor; auto.
    + split; auto.
    + intros [_ Q]. discriminate.
    + intros _ m [? Q]. injection Q as <- _. cbn [just].
      unfold can_downstream_complete, queue_empty in Ed. cbn in Ed. rewrite !andb_true_iff in Ed. destruct Ed as [[[E1 E2] E3] E4].
      assert (Hq : s_queue s = []) by (destruct (s_queue s); [auto|discriminate]). apply Nat.eqb_eq in E2.
      apply done_completed; auto; [apply (j_mir H1')|apply (all_sub C); auto|apply (c_closed C)|]. change (num liv s = 0). lia.
    + apply TR. exact I.
    + split; auto.
    + intros _. destruct C. constructor; auto. intros Hu Hq Hz. unfold can_downstream_complete, queue_empty in Ed. rewrite Hq, Hz, Hu in Ed. cbn in Ed. now rewrite Dn in Ed.
    + intros _ m Q. destruct (NT _ Q).
    + apply TR. exact I.
  - unfold unsubscribe in R. replace (is_torn (Concurrent L) (log s (TUp Uns))) with false in R by (symmetry; exact Et). inversion R; subst; clear R. constructor; auto.
    + split; auto.
    + intros [_ Q]. discriminate.
    + intros _ m [? Q]. injection Q as <- _. cbn [just log s_tr]. now rewrite outer_unsubscribed_snoc, orb_true_r.
    + apply TR. exact I.
  - destruct (_ || _); inversion R; subst; clear R; auto. constructor; auto.
    + split; auto. cbn. cbn in Ha. now rewrite Ha.
    + intros _. destruct C. constructor; auto.
      * intros j [Q|[Q|[]]]; discriminate.
      * intros j [Q|[Q|[]]]; discriminate.
    + intros _ m [? Q]. discriminate.
    + apply (k_tr H).
Qed.

Lemma init_I2 : I2 [] init.
Proof.
  constructor.
  - now apply init_I1.
  - split; auto.
  - intros _. constructor; cbn; auto; try discriminate; try contradiction.
    + exists 0. repeat split; auto; [discriminate|lia].
    + constructor.
  - intros _ m [? Q]. discriminate.
  - apply always_nil.
Qed.

Lemma no_uns_ok : forall h a, no_uns h = true -> In a h -> act_ok a = true.
Proof. intros h a H Ha. unfold no_uns in H. rewrite forallb_forall in H. specialize (H a Ha). destruct a; auto. Qed.
Lemma flatten_I2 : forall fuel h s, no_uns h = true -> flatten down (Concurrent L) fuel h init = Fine s -> I2 [] s.
Proof.
  intros fuel h s Hu R. eapply (@flatten_inv A E down (Concurrent L) (fun a _ => act_ok a = true) I2); eauto using init_I2.
  - apply step_I2.
  - intros a s0 s1 K1 H Ho Hp. eapply perform_I2; eauto.
  - intros a s0 Ha _. eapply no_uns_ok; eauto.
Qed.

Lemma concurrent_relays : forall fuel h s, no_uns h = true -> flatten down (Concurrent L) fuel h init = Fine s ->
  always (relays down (@all_completed A E)) (s_tr s).
Proof. intros fuel h s Hu R p e q Hp. exact (proj1 (k_tr (flatten_I2 _ _ Hu R) p e q Hp)). Qed.
Lemma concurrent_order : forall fuel h s, no_uns h = true -> flatten down (Concurrent L) fuel h init = Fine s ->
  always (in_order down) (s_tr s).
Proof. intros fuel h s Hu R p e q Hp. exact (proj1 (proj2 (k_tr (flatten_I2 _ _ Hu R) p e q Hp))). Qed.
Lemma concurrent_one_by_one : forall fuel h s, L = 1 -> no_uns h = true -> flatten down (Concurrent L) fuel h init = Fine s ->
  always (one_by_one down) (s_tr s).
Proof. intros fuel h s H1 Hu R p e q Hp. exact (proj2 (proj2 (k_tr (flatten_I2 _ _ Hu R) p e q Hp)) H1). Qed.
Lemma prompt_I2 : forall s, I2 [] s -> prompt down L (s_tr s).
Proof.
  intros s H Ho. assert (H1 := k_one H). assert (M := j_mir H1).
  apply (m_shut M) in Ho. assert (C : Cq [] s) by (apply (k_cq H); split; auto).
  destruct (c_order C) as (n & Hn & Hs & Hl). unfold pend in Hl. cbn in Hl. split.
  - intros i Hi Hno. rewrite (mirror_running M). rewrite <- (m_arr M) in Hi. rewrite <- (m_sub M) in Hno.
    assert (Hni : ~ i < n) by (intros Q; apply Hs in Q; congruence).
    assert (Hq : s_queue s <> []) by (intros Q; rewrite Q in Hl; destruct (s_arrived s - n) eqn:Z; [lia|discriminate]).
    pose proof (c_prompt C Hq) as P. unfold nadv, pend in P. cbn in P. lia.
  - intros [Q1 Q2]. rewrite <- (m_up M) in Q1.
    assert (Hall : forall i, i < s_arrived s -> i_completed (s_inner s i) = true) by (intros i Hi; rewrite (m_cmp M); apply Q2; now rewrite <- (m_arr M)).
    assert (Hz : num liv s = 0).
    { apply cnt_none. intros i Hi. unfold liv. rewrite (Hall i Hi). now rewrite andb_false_r. }
    assert (Hq : s_queue s = []).
    { destruct (s_queue s) as [|x q] eqn:Z; auto. pose proof (c_prompt C) as P. rewrite Z in P. specialize (P ltac:(discriminate)). unfold nadv, pend in P. cbn in P. lia. }
    pose proof (c_done C Q1 Hq) as Hnz. pose proof (j_nc H1) as Hnc. unfold nic, pend in Hnc. cbn in Hnc. lia.
Qed.
Lemma concurrent_prompt : forall fuel h s, no_uns h = true -> flatten down (Concurrent L) fuel h init = Fine s -> prompt down L (s_tr s).
Proof. intros fuel h s Hu R. apply prompt_I2. eapply flatten_I2; eauto. Qed.
End Conc2.
