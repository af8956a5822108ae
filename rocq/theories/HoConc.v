(** Proofs about [HoModel]: the concurrent subscriber, all histories. *)
From Coq Require Import NArith.
From Verif Require Import Base SubscrModel LifeModel CombModel HoModel HoSpec HoProofs.
Set Implicit Arguments.

Section Conc.
Variables A E : Type.
Variable down : list (ncall A E) -> bool.
Variable L : nat.
Hypothesis HL : 1 <= L.
Notation st := (HoModel.st A E).
Notation cmd := (HoModel.cmd A E).
Notation step := (HoModel.step down (Concurrent L)).
Implicit Types (s : st) (K : list cmd).

Definition liv (v : inner) : bool := i_sub v && negb (i_completed v) && negb (i_closed v).
Definition ope (v : inner) : bool := i_sub v && negb (i_closed v).
Definition num (f : inner -> bool) s : nat := cnt (fun i => f (s_inner s i)) (s_arrived s).
Lemma cnt_inner : forall (f : inner -> bool) (n : nat) (g : nat -> inner) i v, i < n ->
  cnt (fun j => f (if j =? i then v else g j)) n + (if f (g i) then 1 else 0) = cnt (fun j => f (g j)) n + (if f v then 1 else 0).
Proof.
  intros f n g i v Hi. pose proof (@cnt_set (fun j => f (g j)) (fun j => f (if j =? i then v else g j)) n i Hi) as Q.
  cbn beta in Q. rewrite Nat.eqb_refl in Q. apply Q. intros j Hj. apply Nat.eqb_neq in Hj. now rewrite Hj.
Qed.
Definition shut s : bool := t_shut (s_told s).

Definition pend1 (c : cmd) : list nat := match c with KCreate i _ => [i] | _ => [] end.
Definition pend K : list nat := flat_map pend1 K.
Definition is_adv (c : cmd) : bool := match c with KAdvance => true | _ => false end.
Definition nadv K : nat := length (filter is_adv K).
Definition is_ic (c : cmd) : bool := match c with KInnerCompleted _ => true | _ => false end.
Definition nic K : nat := length (filter is_ic K).
Definition lowly (c : cmd) : bool := match c with KTell _ | KAdvance | KCreate _ _ => false | _ => true end.
Definition top_closing K : bool := match K with KTell m :: _ => is_closing m | _ => false end.
Definition ends (c : cmd) : bool := match c with KTear | KTearEnd | KUnsubFrom _ => true | _ => false end.
Definition okf s (c : cmd) : Prop :=
  match c with
  | KUnsub i | KUnsubFrom i | KAfterNext i | KSubscribed i => i_sub (s_inner s i) = true
  | KInnerCompleted i => i_sub (s_inner s i) = true /\ i_completed (s_inner s i) = true
  | KOnUnsub i => i_sub (s_inner s i) = true /\ i_closed (s_inner s i) = true
  | KCheck => False
  | _ => True
  end.

Arguments num : simpl never.
Arguments pend : simpl never.
Arguments nadv : simpl never.
Arguments nic : simpl never.
(** The next command about the inner observable [i] unsubscribes it. *)
Fixpoint before (i : nat) K : bool :=
  match K with
  | [] => false
  | KUnsub j :: K' => if j =? i then true else before i K'
  | KCall j _ :: K' => if j =? i then false else before i K'
  | _ :: K' => before i K'
  end.
Definition nocall (i : nat) (c : cmd) : bool := match c with KCall j _ => negb (j =? i) | _ => true end.
Lemma before_app : forall i K1 K, forallb (nocall i) K1 = true -> before i K = true -> before i (K1 ++ K) = true.
Proof.
  intros i. induction K1 as [|c K1 IH]; cbn [app before forallb]; intros K H1 H2; auto. apply andb_true_iff in H1. destruct H1 as [H1 H3].
  destruct c; cbn in H1; auto. apply negb_true_iff in H1. now rewrite H1, IH. destruct (i0 =? i); auto.
Qed.

Lemma before_tl : forall j c K, before j (c :: K) = true -> c = KUnsub j \/ before j K = true.
Proof. intros j c K H. destruct c; cbn in H; auto; destruct (i =? j) eqn:Q; auto; [discriminate|]. apply Nat.eqb_eq in Q. subst. auto. Qed.
Definition silent (c : cmd) : bool := match c with KCall _ _ => false | _ => true end.
Lemma silent_nocall : forall i K, forallb silent K = true -> forallb (nocall i) K = true.
Proof. intros i. induction K as [|c K IH]; cbn; auto. intros H. apply andb_true_iff in H. destruct H as [H1 H2]. rewrite IH by auto. destruct c; try discriminate; auto. Qed.

Lemma pend_app : forall K K', pend (K ++ K') = pend K ++ pend K'. Proof. intros. apply flat_map_app. Qed.
Lemma nadv_app : forall K K', nadv (K ++ K') = nadv K + nadv K'. Proof. intros. unfold nadv. now rewrite filter_app, app_length. Qed.
Lemma nic_app : forall K K', nic (K ++ K') = nic K + nic K'. Proof. intros. unfold nic. now rewrite filter_app, app_length. Qed.
Lemma pend_cons : forall c K, pend (c :: K) = pend1 c ++ pend K. Proof. reflexivity. Qed.
Lemma nadv_cons : forall c K, nadv (c :: K) = (if is_adv c then 1 else 0) + nadv K. Proof. intros. unfold nadv. cbn. now destruct (is_adv c). Qed.
Lemma nic_cons : forall c K, nic (c :: K) = (if is_ic c then 1 else 0) + nic K. Proof. intros. unfold nic. cbn. now destruct (is_ic c). Qed.
Lemma lowly_pend : forall K, forallb lowly K = true -> pend K = [].
Proof. induction K as [|c K IH]; cbn; intros H; auto. apply andb_true_iff in H. destruct H as [H1 H2]. rewrite pend_cons, IH by auto. destruct c; try discriminate; auto. Qed.
Lemma lowly_nadv : forall K, forallb lowly K = true -> nadv K = 0.
Proof. induction K as [|c K IH]; cbn; intros H; auto. apply andb_true_iff in H. destruct H as [H1 H2]. rewrite nadv_cons, IH by auto. destruct c; try discriminate; auto. Qed.

(** The state is what the trace says. *)
Record mirror s : Prop := {
  m_sub : forall i, i_sub (s_inner s i) = subscribed i (s_tr s);
  m_cmp : forall i, i_completed (s_inner s i) = completed i (s_tr s);
  m_end : forall i, i_closed (s_inner s i) = ended i (s_tr s);
  m_arr : s_arrived s = arrivals (s_tr s);
  m_up : is_completed (s_up s) = outer_completed (s_tr s);
  m_out : t_out (s_told s) = outs (s_tr s);
  m_shut : t_shut (s_told s) = false <-> open down (s_tr s)
}.

Definition good (p : list (ev A E)) (e : ev A E) : Prop := limited down L p e /\ once p e.

Record I1 K s : Prop := {
  j_tail : forallb lowly (tl K) = true;
  j_nodup : NoDup (pend K ++ map fst (s_queue s));
  j_wait : forall i, In i (pend K ++ map fst (s_queue s)) -> i < s_arrived s /\ s_inner s i = no_inner;
  j_sub : forall i, i_sub (s_inner s i) = true -> i < s_arrived s;
  j_none : forall i, i_sub (s_inner s i) = false -> s_inner s i = no_inner;
  j_fr : Forall (okf s) K;
  j_slabids : forall l i, In l (s_slab s) -> In i l -> i_sub (s_inner s i) = true;
  j_nc : s_nc s = num liv s + nic K + length (pend K);
  j_nu : s_nu s = num ope s + length (pend K);
  j_torn : s_torn s = true -> shut s = true;
  j_end : forall c, In c K -> ends c = true -> shut s = true \/ top_closing K = true;
  j_down : is_closed (s_down s) = true -> shut s = true \/ top_closing K = true;
  j_uperr : is_errored (s_up s) = true -> shut s = true \/ top_closing K = true;
  j_upuns : is_unsubscribed (s_up s) = true -> is_completed (s_up s) = true \/ shut s = true;
  j_slab : s_torn s = false -> length (s_slab s) = num i_sub s /\
             forall i, i_sub (s_inner s i) = true -> i_key (s_inner s i) < length (s_slab s);
  j_lim : shut s = false -> num liv s + nadv K + length (pend K) <= L;
  j_comp : forall i, i_completed (s_inner s i) = true -> i_closed (s_inner s i) = true \/ before i K = true;
  j_oc : forall i, i_sub (s_inner s i) = true -> i_oc (s_inner s i) = negb (i_completed (s_inner s i));
  j_mir : mirror s;
  j_tr : always good (s_tr s)
}.

Definition grows s s' : Prop := forall i,
  (i_sub (s_inner s i) = true -> i_sub (s_inner s' i) = true) /\
  (i_completed (s_inner s i) = true -> i_completed (s_inner s' i) = true) /\
  (i_closed (s_inner s i) = true -> i_closed (s_inner s' i) = true).
Lemma grows_fr : forall s s' K, grows s s' -> Forall (okf s) K -> Forall (okf s') K.
Proof.
  intros s s' K G. apply Forall_impl. intros c. destruct c; cbn; auto; try (apply G).
  - intros [H1 H2]. split; now apply G.
  - intros [H1 H2]. split; now apply G.
Qed.

(** What the top of the stack tells. *)
Lemma I1_top : forall c K s, I1 (c :: K) s -> forallb lowly K = true /\ pend K = [] /\ nadv K = 0.
Proof. intros c K s H. pose proof (j_tail H) as T. cbn in T. auto using lowly_pend, lowly_nadv. Qed.

Lemma mirror_running : forall s, mirror s -> running (s_tr s) = num liv s.
Proof.
  intros s M. unfold running, num. rewrite <- (m_arr M). apply cnt_ext. intros i _. unfold active, liv.
  now rewrite (m_sub M), (m_cmp M), (m_end M).
Qed.

Lemma lowly_tl : forall K, forallb lowly K = true -> forallb lowly (tl K) = true.
Proof. intros [|c K]; cbn; auto. intros H. apply andb_true_iff in H. tauto. Qed.

(** *** Unsubscribing an inner subscriber. *)

Lemma do_unsub_I1 : forall c i K s s' K1, I1 (c :: K) s -> lowly c = true -> is_ic c = false ->
  (forall j, c = KUnsub j -> j = i) -> i_sub (s_inner s i) = true -> do_unsub i s = Some (s', K1) -> I1 (K1 ++ K) s'.
Proof.
  intros c i K s s' K1 H Hl Hic Hci Hsub R. destruct (I1_top H) as (T1 & T2 & T3).
  assert (Hp : pend (c :: K) = []) by (rewrite pend_cons, T2; destruct c; try discriminate; auto).
  assert (Ha : nadv (c :: K) = 0) by (rewrite nadv_cons, T3; destruct c; try discriminate; auto).
  assert (Hi : nic (c :: K) = nic K) by (rewrite nic_cons, Hic; auto).
  assert (Ht : top_closing (c :: K) = false) by (destruct c; try discriminate; auto).
  assert (HK : Forall (okf s) K) by (pose proof (j_fr H) as F; now inversion F).
  unfold do_unsub in R. destruct (i_closed (s_inner s i)) eqn:Ec.
  { injection R as <- <-. cbn. destruct H. constructor; rewrite ?Hp, ?Ha, ?Hi, ?Ht, ?T2, ?T3 in *; auto using lowly_tl.
    - intros c' Hc He. destruct (j_end0 c' (or_intror Hc) He); auto. discriminate.
    - intros Hd. destruct (j_down0 Hd); auto. discriminate.
    - intros Hd. destruct (j_uperr0 Hd); auto. discriminate.
    - intros j Hj. destruct (j_comp0 j Hj) as [Z|Z]; auto. apply before_tl in Z. destruct Z as [Z|Z]; auto. apply Hci in Z. subst j. auto. }
  set (v := s_inner s i) in *. set (fire := negb (is_unsubscribed (s_down s)) && i_ou v) in *.
  destruct (minus_one (s_nu s)) as [nu|] eqn:Enu; [|discriminate].
  destruct (if i_completed v then Some (s_nc s) else minus_one (s_nc s)) as [nc|] eqn:Enc; [|discriminate].
  injection R as <- <-.
  assert (Hlt : i < s_arrived s) by (apply (j_sub H); auto).
  assert (Hop : num ope s = S nu).
  { destruct (s_nu s) eqn:En; [discriminate|]. injection Enu as <-. pose proof (j_nu H) as Q. rewrite Hp, En in Q. cbn in Q. lia. }
  set (s' := with_counts _ nc nu).
  assert (Hn : forall f, num f s' + (if f v then 1 else 0) = num f s + (if f (set_closed fire v) then 1 else 0)) by (intros f; apply (@cnt_inner f (s_arrived s) (s_inner s) i (set_closed fire v) Hlt)).
  assert (Hopn : num ope s' = nu).
  { specialize (Hn ope). assert (Q1 : ope v = true) by (unfold ope; now rewrite Hsub, Ec).
    assert (Q2 : ope (set_closed fire v) = false) by (unfold ope; cbn; apply andb_false_r). rewrite Q1, Q2 in Hn. lia. }
  assert (Hsb : num i_sub s' = num i_sub s).
  { specialize (Hn i_sub). change (i_sub (set_closed fire v)) with (i_sub v) in Hn. lia. }
  assert (Hlv : num liv s' + (if i_completed v then 0 else 1) = num liv s).
  { specialize (Hn liv). assert (Q1 : liv v = negb (i_completed v)) by (unfold liv; rewrite Hsub, Ec; now destruct (i_completed v)).
    assert (Q2 : liv (set_closed fire v) = false) by (unfold liv; cbn; apply andb_false_r). rewrite Q1, Q2 in Hn. destruct (i_completed v); cbn in *; lia. }
  assert (G : grows s s').
  { intros j. unfold s'. cbn. destruct (j =? i) eqn:Ej; [|auto]. apply Nat.eqb_eq in Ej. subst j. fold v. cbn. auto. }
  assert (Hshut : is_closed (s_down s') = true -> shut s = true).
  { unfold s'. cbn. destruct (can_downstream_unsubscribe s) eqn:Ecan.
    - intros _. unfold can_downstream_unsubscribe in Ecan.
      destruct (s_nu s) eqn:En; [discriminate|]. replace (S n =? 0) with false in Ecan by reflexivity. rewrite andb_false_r in Ecan. cbn in Ecan.
      apply orb_true_iff in Ecan. destruct Ecan as [Ecan|Ecan].
      + destruct (j_uperr H Ecan); congruence.
      + destruct (j_down H Ecan); congruence.
    - intros Hd. destruct (j_down H Hd); congruence. }
  assert (Hcall : forallb lowly (tl ((if fire then [KOnUnsub i] else []) ++ K)) = true) by (destruct fire; cbn; auto using lowly_tl).
  assert (Hp' : pend ((if fire then [KOnUnsub i] else []) ++ K) = []) by (rewrite pend_app, T2; now destruct fire).
  assert (Ha' : nadv ((if fire then [KOnUnsub i] else []) ++ K) = 0) by (rewrite nadv_app, T3; now destruct fire).
  assert (Hi' : nic ((if fire then [KOnUnsub i] else []) ++ K) = nic K) by (rewrite nic_app; now destruct fire).
  destruct H. rewrite Hp, Ha, Hi, Ht in *. constructor; rewrite ?Hp', ?Ha', ?Hi'; auto.
  - intros j Hj. destruct (j_wait0 j Hj) as [Q1 Q2]. split; auto. unfold s'. cbn. destruct (j =? i) eqn:Ej; auto.
    apply Nat.eqb_eq in Ej. subst j. unfold v in *. rewrite Q2 in Hsub. discriminate.
  - intros j. unfold s'. cbn. destruct (j =? i) eqn:Ej; auto. intros _. apply Nat.eqb_eq in Ej. now subst j.
  - intros j. unfold s'. cbn. destruct (j =? i) eqn:Ej; auto. cbn. congruence.
  - apply Forall_app. split; [|now apply (grows_fr G)]. destruct fire; constructor; auto. unfold s'. cbn. rewrite Nat.eqb_refl. cbn. auto.
  - intros l j Hl1 Hj. apply G. eauto.
  - change (s_nc s') with nc. destruct (i_completed v); [injection Enc as <-; lia|].
    destruct (s_nc s); [discriminate|]. injection Enc as <-. cbn [length] in *. lia.
  - change (s_nu s') with nu. cbn [length]. lia.
  - intros x Hx Hxe. left. apply in_app_or in Hx. destruct Hx as [Hx|Hx].
    + destruct fire; [|destruct Hx]. destruct Hx as [<-|[]]. discriminate.
    + destruct (j_end0 x (or_intror Hx) Hxe); auto. discriminate.
  - intros Hx. destruct (j_uperr0 Hx); auto. discriminate.
  - intros Hx. destruct (j_slab0 Hx) as [Q1 Q2]. split; [cbn; rewrite Hsb; auto|]. intros j. unfold s'. cbn. destruct (j =? i) eqn:Ej; auto.
    apply Nat.eqb_eq in Ej. subst j. intros _. cbn. apply (Q2 i). auto.
  - intros Hx. specialize (j_lim0 Hx). lia.
  - intros j. unfold s'. cbn [s_inner with_counts with_down log with_inner]. destruct (j =? i) eqn:Ej; [cbn; auto|]. intros Hj. destruct (j_comp0 j Hj) as [Z|Z]; auto.
    right. apply before_tl in Z. destruct Z as [Z|Z]; [apply Hci in Z; apply Nat.eqb_neq in Ej; contradiction|].
    apply before_app; auto. now destruct fire.
  - intros j. unfold s'. cbn [s_inner with_counts with_down log with_inner]. destruct (j =? i) eqn:Ej; auto. apply Nat.eqb_eq in Ej. subst j. apply (j_oc0 i).
  - destruct j_mir0. constructor; cbn.
    + intros j. autorewrite with snoc. rewrite orb_false_r. destruct (j =? i) eqn:Ej; auto. apply Nat.eqb_eq in Ej. subst j. apply (m_sub0 i).
    + intros j. autorewrite with snoc. rewrite orb_false_r. destruct (j =? i) eqn:Ej; auto. apply Nat.eqb_eq in Ej. subst j. apply (m_cmp0 i).
    + intros j. autorewrite with snoc. rewrite (Nat.eqb_sym i j). destruct (j =? i) eqn:Ej; cbn; [now rewrite orb_true_r|rewrite orb_false_r; auto].
    + autorewrite with snoc. lia.
    + autorewrite with snoc. now rewrite orb_false_r.
    + autorewrite with snoc. now rewrite app_nil_r.
    + rewrite m_shut0. split; apply open_same; autorewrite with snoc; now rewrite app_nil_r.
  - apply always_snoc; auto. split; exact I.
Qed.

(** *** Small changes. *)
Lemma quiet : forall c K s, I1 (c :: K) s -> top_closing (c :: K) = false ->
  (forall x, In x K -> ends x = true -> shut s = true) /\
  (is_closed (s_down s) = true -> shut s = true) /\ (is_errored (s_up s) = true -> shut s = true).
Proof.
  intros c K s H Ht. repeat split.
  - intros x Hx Hy. destruct (j_end H x (or_intror Hx) Hy); auto. congruence.
  - intros Hy. destruct (j_down H Hy); auto. congruence.
  - intros Hy. destruct (j_uperr H Hy); auto. congruence.
Qed.

Lemma I1_stack : forall c K K1 s, I1 (c :: K) s -> lowly c = true -> is_ic c = false ->
  (forall j, c = KUnsub j -> i_closed (s_inner s j) = true) -> forallb silent K1 = true ->
  forallb lowly (tl K1) = true -> pend K1 = [] -> nic K1 = 0 -> Forall (okf s) K1 ->
  (forall x, In x K1 -> ends x = true -> shut s = true \/ top_closing K1 = true) ->
  (shut s = false -> num liv s + nadv K1 <= L) ->
  I1 (K1 ++ K) s.
Proof.
  intros c K K1 s H Hl Hic Hcu Hsil H1 H2 H3 H4 H5 H6. destruct (I1_top H) as (T1 & T2 & T3).
  assert (Ht : top_closing (c :: K) = false) by (destruct c; try discriminate; auto).
  destruct (quiet H Ht) as (Q1 & Q2 & Q3).
  assert (Hp : pend (c :: K) = []) by (rewrite pend_cons, T2; destruct c; try discriminate; auto).
  assert (Hi : nic (c :: K) = nic K) by (rewrite nic_cons, Hic; auto).
  assert (HK : Forall (okf s) K) by (pose proof (j_fr H) as F; now inversion F).
  destruct H. rewrite Hp, Hi in *. constructor; rewrite ?pend_app, ?nic_app, ?nadv_app, ?H2, ?H3, ?T2, ?T3; auto.
  - destruct K1; cbn in *; [apply lowly_tl; auto|]. rewrite forallb_app. now rewrite H1, T1.
  - apply Forall_app. auto.
  - intros x Hx Hy. apply in_app_or in Hx. destruct Hx as [Hx|Hx]; [|left; eauto].
    destruct (H5 x Hx Hy); auto. right. destruct K1; auto.
  - intros Hs. specialize (H6 Hs). rewrite Nat.add_0_r. cbn [length app]. lia.
  - intros j Hj. destruct (j_comp0 j Hj) as [Z|Z]; auto. apply before_tl in Z. destruct Z as [Z|Z]; [subst; auto|].
    right. apply before_app; auto using silent_nocall.
Qed.

Lemma low_lim : forall c K s, I1 (c :: K) s -> lowly c = true -> shut s = false -> num liv s <= L.
Proof. intros c K s H Hl Hs. pose proof (j_lim H Hs). lia. Qed.
Lemma I1_pop : forall c K s, I1 (c :: K) s -> lowly c = true -> is_ic c = false ->
  (forall j, c = KUnsub j -> i_closed (s_inner s j) = true) -> I1 K s.
Proof.
  intros c K s H H1 H2 H3. apply (@I1_stack c K [] s); auto.
  intros Hs. pose proof (low_lim H H1 Hs). change (nadv []) with 0. lia.
Qed.
Lemma I1_calls : forall c K K1 s, I1 (c :: K) s -> lowly c = true -> is_ic c = false -> 
  (forall j, c = KUnsub j -> i_closed (s_inner s j) = true) -> forallb silent K1 = true ->
  forallb lowly (tl K1) = true -> pend K1 = [] -> nic K1 = 0 -> nadv K1 = 0 -> Forall (okf s) K1 ->
  (forall x, In x K1 -> ends x = true -> shut s = true \/ top_closing K1 = true) -> I1 (K1 ++ K) s.
Proof.
  intros c K K1 s H H1 H2 H3 H4 H5 H6 H7 H8 H9 H10. apply (@I1_stack c K K1 s); auto.
  intros Hs. pose proof (low_lim H H1 Hs). lia.
Qed.

Lemma mirror_same : forall s s', s_inner s' = s_inner s -> s_arrived s' = s_arrived s -> s_tr s' = s_tr s ->
  s_told s' = s_told s -> is_completed (s_up s') = is_completed (s_up s) -> mirror s -> mirror s'.
Proof. intros s s' H1 H2 H3 H4 H5 []. constructor; rewrite ?H1, ?H2, ?H3, ?H4, ?H5; auto. Qed.

Lemma I1_down : forall K s d, I1 K s -> (is_closed d = true -> shut s = true \/ top_closing K = true) -> I1 K (with_down s d).
Proof. intros K s d [] Hd. constructor; auto. revert j_mir0. apply mirror_same; auto. Qed.
Lemma I1_up : forall K s u, I1 K s -> is_completed u = is_completed (s_up s) ->
  (is_errored u = true -> shut s = true \/ top_closing K = true) ->
  (is_unsubscribed u = true -> is_completed u = true \/ shut s = true) -> I1 K (with_up s u).
Proof. intros K s u [] H1 H2 H3. constructor; auto. revert j_mir0. apply mirror_same; auto. Qed.
Lemma I1_busy : forall K s b, I1 K s -> I1 K (with_busy s b).
Proof. intros K s u []. constructor; auto. revert j_mir0. apply mirror_same; auto. Qed.
Lemma I1_drain : forall K s, I1 K s -> I1 K (with_queue s []).
Proof.
  intros K s []. constructor; auto; cbn; rewrite ?app_nil_r.
  - eapply nodup_l. eassumption.
  - intros i Hi. apply j_wait0. apply in_or_app. auto.
  - revert j_mir0. apply mirror_same; auto.
Qed.
Lemma I1_tear : forall K s, I1 K s -> shut s = true -> I1 K (with_slab (with_torn s true) []).
Proof. intros K s [] H. constructor; auto; cbn; try discriminate; try contradiction. revert j_mir0. apply mirror_same; auto. Qed.

Definition neutral (e : ev A E) : bool :=
  match e with TIn _ Cmp => false | TIn _ _ => true | TUp Cmp => false | TUp _ => true | _ => false end.
Lemma mirror_log : forall s e, neutral e = true -> mirror s -> mirror (log s e).
Proof.
  intros s e He [].
  assert (H1 : forall i, match e with TSub j => j =? i | _ => false end = false) by (intros; destruct e; try discriminate; auto).
  assert (H2 : forall i, match e with TIn j Cmp => j =? i | _ => false end = false) by (intros; destruct e as [| | |? []| |]; try discriminate; auto).
  assert (H3 : forall i, match e with TEnd j => j =? i | _ => false end = false) by (intros; destruct e; try discriminate; auto).
  assert (H4 : match e with TUp Cmp => true | _ => false end = false) by (intros; destruct e as [|[]| | | |]; try discriminate; auto).
  assert (H5 : match e with TOut c => [c] | _ => [] end = []) by (intros; destruct e; try discriminate; auto).
  assert (H6 : match e with TArrive _ => 1 | _ => 0 end = 0) by (intros; destruct e; try discriminate; auto).
  constructor; cbn; intros; autorewrite with snoc; rewrite ?H1, ?H2, ?H3, ?H4, ?H5, ?H6, ?orb_false_r, ?app_nil_r, ?Nat.add_0_r; auto.
  rewrite m_shut0. split; apply open_same; rewrite outs_snoc, H5, app_nil_r; auto.
Qed.
Lemma I1_log : forall K s e, neutral e = true -> I1 K s -> I1 K (log s e).
Proof.
  intros K s e He []. constructor; auto.
  - now apply mirror_log.
  - apply always_snoc; auto. destruct e; try discriminate; split; exact I.
Qed.
Lemma I1_slab_add : forall K s i l, I1 K s -> i_sub (s_inner s i) = true -> nth_error (s_slab s) (i_key (s_inner s i)) = Some l ->
  I1 K (with_slab s (firstn (i_key (s_inner s i)) (s_slab s) ++ (l ++ [i]) :: skipn (S (i_key (s_inner s i))) (s_slab s))).
Proof.
  intros K s i l H Hi Hl. set (n := i_key (s_inner s i)) in *.
  assert (Hn : n < length (s_slab s)) by (apply nth_error_Some; congruence).
  assert (HLn : length (firstn n (s_slab s) ++ (l ++ [i]) :: skipn (S n) (s_slab s)) = length (s_slab s)).
  { rewrite app_length. cbn [length]. rewrite firstn_length, skipn_length. lia. }
  destruct H. constructor; auto.
  - intros l' j Hl' Hj. cbn [s_slab with_slab s_inner] in *. apply in_app_or in Hl'. destruct Hl' as [Hl'|[<-|Hl']].
    + apply (j_slabids0 l'); auto. rewrite <- (firstn_skipn n). apply in_or_app. auto.
    + apply in_app_or in Hj. destruct Hj as [Hj|[<-|[]]]; auto. apply (j_slabids0 l); auto. eapply nth_error_In; eauto.
    + apply (j_slabids0 l'); auto. rewrite <- (firstn_skipn (S n)). apply in_or_app. auto.
  - cbn [s_slab with_slab s_inner]. rewrite HLn. auto.
  - revert j_mir0. apply mirror_same; auto.
Qed.

(** *** The larger steps. *)
Lemma tell_I1 : forall m K s s' K1, I1 (KTell m :: K) s -> step (KTell m) s = Some (s', K1) -> I1 (K1 ++ K) s'.
Proof.
  intros m K s s' K1 H R. cbn [HoModel.step] in R. destruct (I1_top H) as (T1 & T2 & T3).
  assert (HK : Forall (okf s) K) by (pose proof (j_fr H) as F; now inversion F).
  destruct H. rewrite pend_cons, nic_cons, nadv_cons, T2, T3 in *. cbn [pend1 is_adv is_ic app Nat.add length] in *.
  destruct (t_shut (s_told s)) eqn:Es.
  - injection R as <- <-. cbn [app]. constructor; rewrite ?T2, ?T3; auto using lowly_tl.
  - set (s1 := log (with_told s (tell down m (s_told s))) (TOut m)) in *.
    assert (Hs : shut s1 = is_closing m || down (outs (s_tr s) ++ [m])).
    { unfold shut, s1. cbn. rewrite Es, (m_out j_mir0). reflexivity. }
    assert (Hcl : top_closing (KTell m :: K) = true -> shut s1 = true) by (intros Q; change (is_closing m = true) in Q; rewrite Hs, Q; auto).
    assert (Es' : s' = s1 /\ K1 = (if shut s1 then [KTear] else [])) by (unfold shut; inversion R; auto).
    destruct Es' as [-> ->].
    assert (P : pend ((if shut s1 then [KTear] else []) ++ K) = []) by (rewrite pend_app, T2; now destruct (shut s1)).
    assert (P2 : nadv ((if shut s1 then [KTear] else []) ++ K) = 0) by (rewrite nadv_app, T3; now destruct (shut s1)).
    assert (P3 : nic ((if shut s1 then [KTear] else []) ++ K) = nic K) by (rewrite nic_app; now destruct (shut s1)).
    constructor; rewrite ?P, ?P2, ?P3; auto.
    + destruct (shut s1); cbn; auto using lowly_tl.
    + apply Forall_app. split; [destruct (shut s1); constructor; cbn; auto|auto].
    + intros Ht. specialize (j_torn0 Ht). unfold shut in j_torn0. congruence.
    + intros x Hx Hy. left. destruct (shut s1) eqn:Q; auto. cbn in Hx.
      destruct (j_end0 x (or_intror Hx) Hy) as [Q1|Q1]; [unfold shut in Q1; congruence|]. rewrite Hcl in Q; auto.
    + intros Hy. left. destruct (j_down0 Hy) as [Q1|Q1]; [unfold shut in Q1; congruence|auto].
    + intros Hy. left. destruct (j_uperr0 Hy) as [Q1|Q1]; [unfold shut in Q1; congruence|auto].
    + intros Hy. destruct (j_upuns0 Hy) as [Q1|Q1]; auto. unfold shut in Q1; congruence.
    + intros j Hj. destruct (j_comp0 j Hj) as [Z|Z]; auto. right. cbn in Z. apply before_app; auto. now destruct (shut s1).
    + destruct j_mir0. constructor; cbn; intros; autorewrite with snoc; rewrite ?orb_false_r, ?Nat.add_0_r, ?m_out0; auto.
      rewrite open_out, <- m_shut0, Es, <- m_out0. cbn. rewrite orb_false_iff. tauto.
    + apply always_snoc; auto. split; exact I.
Qed.

Lemma advance_I1 : forall K s s' K1, I1 (KAdvance :: K) s -> step KAdvance s = Some (s', K1) -> I1 (K1 ++ K) s'.
Proof.
  intros K s s' K1 H R. cbn [HoModel.step] in R. destruct (I1_top H) as (T1 & T2 & T3).
  assert (HK : Forall (okf s) K) by (pose proof (j_fr H) as F; now inversion F).
  destruct (quiet H eq_refl) as (Q1 & Q2 & Q3).
  destruct H. rewrite pend_cons, nic_cons, nadv_cons, T2, T3 in *. cbn [pend1 is_adv is_ic app Nat.add length] in *.
  destruct (s_queue s) as [|[i l] q] eqn:Eq; injection R as <- <-; cbn [app].
  - constructor; rewrite ?T2, ?T3, ?Eq; auto using lowly_tl.
    + intros x Hx Hy. left. eapply Q1; eauto.
    + intros Hs. specialize (j_lim0 Hs). cbn [length]. lia.
  - constructor; rewrite ?pend_cons, ?nic_cons, ?nadv_cons, ?T2, ?T3; cbn [pend1 is_adv is_ic app Nat.add length]; auto.
    + constructor; cbn; auto.
    + change (S (s_nc s) = num liv s + nic K + 1). lia.
    + change (S (s_nu s) = num ope s + 1). lia.
    + intros x [<-|Hx] Hy; [discriminate|left; eapply Q1; eauto].
    + intros Hs. specialize (j_lim0 Hs). change (num liv s + 0 + 1 <= L). lia.
    + revert j_mir0. apply mirror_same; auto.
Qed.

Lemma forallb_calls : forall i (l : list (ncall A E)), forallb lowly (map (KCall i) l ++ [KSubscribed i]) = true.
Proof. intros i l. rewrite forallb_app. cbn. rewrite andb_true_r. induction l; cbn; auto. Qed.

Lemma nic_calls : forall i (l : list (ncall A E)), nic (map (KCall i) l ++ [KSubscribed i]) = 0.
Proof. intros i l. induction l; cbn [map app]; [reflexivity|]. rewrite nic_cons. auto. Qed.

Lemma create_I1 : forall i l K s s' K1, I1 (KCreate i l :: K) s -> step (KCreate i l) s = Some (s', K1) -> I1 (K1 ++ K) s'.
Proof.
  intros i l K s s' K1 H R. cbn [HoModel.step] in R. destruct (I1_top H) as (T1 & T2 & T3).
  assert (HK : Forall (okf s) K) by (pose proof (j_fr H) as F; now inversion F).
  destruct (quiet H eq_refl) as (Q1 & Q2 & Q3).
  destruct H. rewrite pend_cons, nic_cons, nadv_cons, T2, T3 in *. cbn [pend1 is_adv is_ic app Nat.add length] in *.
  injection R as <- <-. set (v := mkInner true false false (length (s_slab s)) true true).
  set (s' := log _ _). set (K1 := map (KCall i) l ++ [KSubscribed i]).
  destruct (j_wait0 i (or_introl eq_refl)) as [Hi Hno].
  assert (HF : forallb lowly K1 = true) by apply forallb_calls.
  assert (P1 : pend (K1 ++ K) = []) by (rewrite pend_app, T2, app_nil_r; now apply lowly_pend).
  assert (P2 : nadv (K1 ++ K) = 0) by (rewrite nadv_app, T3, Nat.add_0_r; now apply lowly_nadv).
  assert (P3 : nic (K1 ++ K) = nic K).
  { rewrite nic_app. unfold K1. now rewrite nic_calls. }
  assert (Hn : forall f, num f s' + (if f no_inner then 1 else 0) = num f s + (if f v then 1 else 0)).
  { intros f. rewrite <- Hno. apply (@cnt_inner f (s_arrived s) (s_inner s) i v Hi). }
  assert (Hlv := Hn liv). assert (Hop := Hn ope). assert (Hsb := Hn i_sub). cbn in Hlv, Hop, Hsb.
  assert (G : grows s s').
  { intros j. unfold s'. cbn. destruct (j =? i) eqn:Ej; [|auto]. apply Nat.eqb_eq in Ej. subst j. rewrite Hno. cbn. auto. }
  apply NoDup_cons_iff in j_nodup0. destruct j_nodup0 as [Hni Hnd].
  constructor; rewrite ?P1, ?P2, ?P3; auto.
  - apply lowly_tl in HF. destruct K1 eqn:EK; [destruct l; discriminate|]. cbn [tl app] in *. rewrite forallb_app. now rewrite HF, T1.
  - intros j Hj. cbn in Hj. assert (Hji : j <> i) by (intros ->; auto). destruct (j_wait0 j (or_intror Hj)) as [Z1 Z2].
    split; auto. unfold s'. cbn. apply Nat.eqb_neq in Hji. now rewrite Hji.
  - intros j. unfold s'. cbn. destruct (j =? i) eqn:Ej; auto. intros _. apply Nat.eqb_eq in Ej. now subst j.
  - intros j. unfold s'. cbn. destruct (j =? i) eqn:Ej; auto. cbn. discriminate.
  - apply Forall_app. split; [|now apply (grows_fr G)]. unfold K1. apply Forall_app. split.
    + apply Forall_forall. intros x Hx. apply in_map_iff in Hx. destruct Hx as (y & <- & _). exact I.
    + constructor; auto. unfold s'. cbn. now rewrite Nat.eqb_refl.
  - intros l' j Hl' Hj. apply G. unfold s' in Hl'. cbn in Hl'. apply in_app_or in Hl'. destruct Hl' as [Hl'|[<-|[]]]; [eauto|destruct Hj].
  - change (s_nc s = num liv s' + nic K + 0). lia.
  - change (s_nu s = num ope s' + 0). lia.
  - intros x Hx Hy. left. apply in_app_or in Hx. destruct Hx as [Hx|Hx]; [|eapply Q1; eauto].
    exfalso. unfold K1 in Hx. apply in_app_or in Hx. destruct Hx as [Hx|[<-|[]]]; [|discriminate].
    apply in_map_iff in Hx. destruct Hx as (y & <- & _). discriminate.
  - intros Ht. destruct (j_slab0 Ht) as [Z1 Z2].
    assert (Q : length (s_slab s') = S (length (s_slab s))) by (change (s_slab s') with (s_slab s ++ [[]]); rewrite app_length; cbn [length]; lia).
    rewrite Q. split; [lia|]. intros j. change (s_inner s' j) with (if j =? i then v else s_inner s j).
    destruct (j =? i) eqn:Ej; [intros _; unfold v; cbn [i_key]; lia|]. intros Hj. specialize (Z2 j Hj). lia.
  - intros Hs. specialize (j_lim0 Hs). cbn [length]. lia.
  - intros j. unfold s'. cbn [s_inner log with_inner with_slab]. destruct (j =? i) eqn:Ej; [discriminate|]. intros Hj.
    destruct (j_comp0 j Hj) as [Z|Z]; auto. right. cbn in Z. apply before_app; auto. unfold K1. rewrite forallb_app. cbn. rewrite andb_true_r.
    apply forallb_forall. intros x Hx. apply in_map_iff in Hx. destruct Hx as (y & <- & _). cbn. now rewrite Nat.eqb_sym, Ej.
  - intros j. unfold s'. cbn [s_inner log with_inner with_slab]. destruct (j =? i) eqn:Ej; auto.
  - assert (J := j_mir0). destruct j_mir0. constructor; cbn.
    + intros j. autorewrite with snoc. rewrite (Nat.eqb_sym i j). destruct (j =? i); cbn; [now rewrite orb_true_r|rewrite orb_false_r; auto].
    + intros j. autorewrite with snoc. rewrite orb_false_r, <- m_cmp0. destruct (j =? i) eqn:Ej; auto. apply Nat.eqb_eq in Ej. subst j. now rewrite Hno.
    + intros j. autorewrite with snoc. rewrite orb_false_r, <- m_end0. destruct (j =? i) eqn:Ej; auto. apply Nat.eqb_eq in Ej. subst j. now rewrite Hno.
    + autorewrite with snoc. lia.
    + autorewrite with snoc. now rewrite orb_false_r.
    + autorewrite with snoc. now rewrite app_nil_r.
    + rewrite m_shut0. split; apply open_same; autorewrite with snoc; now rewrite app_nil_r.
  - apply always_snoc; auto. split.
    + intros Ho. change (running (s_tr s) < L). rewrite (mirror_running j_mir0). apply (m_shut j_mir0) in Ho. specialize (j_lim0 Ho). lia.
    + change (i < arrivals (s_tr s) /\ subscribed i (s_tr s) = false). rewrite <- (m_arr j_mir0), <- (m_sub j_mir0), Hno. auto.
Qed.

Lemma complete_I1 : forall i K s, I1 (KCall i Cmp :: K) s -> i_closed (s_inner s i) = false -> i_sub (s_inner s i) = true ->
  I1 (((if i_oc (s_inner s i) then [KAdvance] else []) ++ [KInnerCompleted i; KUnsub i]) ++ K)
     (with_inner (log s (TIn i Cmp)) i (set_completed (s_inner s i))).
Proof.
  intros i K s H Hc Hs.
  assert (Hco : i_completed (s_inner s i) = false).
  { destruct (i_completed (s_inner s i)) eqn:Q; auto. destruct (j_comp H i Q) as [Z|Z]; [congruence|]. cbn in Z. rewrite Nat.eqb_refl in Z. discriminate. }
  destruct (I1_top H) as (T1 & T2 & T3).
  assert (HK : Forall (okf s) K) by (pose proof (j_fr H) as F; now inversion F).
  destruct (quiet H eq_refl) as (Q1 & Q2 & Q3). assert (Hlt := j_sub H _ Hs).
  destruct H. rewrite pend_cons, nic_cons, nadv_cons, T2, T3 in *. cbn [pend1 is_adv is_ic app Nat.add length] in *.
  set (v := s_inner s i) in *. set (s' := with_inner _ _ _). set (K1 := _ ++ [KInnerCompleted i; KUnsub i]).
  assert (Hn : forall f, num f s' + (if f v then 1 else 0) = num f s + (if f (set_completed v) then 1 else 0)) by (intros f; apply (@cnt_inner f (s_arrived s) (s_inner s) i (set_completed v) Hlt)).
  assert (Hop : num ope s' = num ope s).
  { specialize (Hn ope). change (ope (set_completed v)) with (ope v) in Hn. lia. }
  assert (Hsb : num i_sub s' = num i_sub s).
  { specialize (Hn i_sub). change (i_sub (set_completed v)) with (i_sub v) in Hn. lia. }
  assert (Hlv : num liv s' + 1 = num liv s).
  { specialize (Hn liv). assert (Z1 : liv v = true) by (unfold liv; now rewrite Hs, Hc, Hco).
    assert (Z2 : liv (set_completed v) = false) by (unfold liv; cbn; now rewrite andb_false_r). rewrite Z1, Z2 in Hn. lia. }
  assert (G : grows s s').
  { intros j. unfold s'. cbn. destruct (j =? i) eqn:Ej; [|auto]. apply Nat.eqb_eq in Ej. subst j. fold v. cbn. auto. }
  assert (P1 : pend (K1 ++ K) = []) by (unfold K1; rewrite !pend_app, T2; now destruct (i_oc v)).
  assert (P2 : nadv (K1 ++ K) <= 1) by (unfold K1; rewrite !nadv_app, T3; destruct (i_oc v); cbn; auto).
  assert (P3 : nic (K1 ++ K) = S (nic K)) by (unfold K1; rewrite !nic_app; now destruct (i_oc v)).
  constructor; rewrite ?P1, ?P3; auto.
  - unfold K1. destruct (i_oc v); cbn; auto.
  - intros j Hj. destruct (j_wait0 j Hj) as [Z1 Z2]. split; auto. unfold s'. cbn. destruct (j =? i) eqn:Ej; auto.
    apply Nat.eqb_eq in Ej. subst j. unfold v in Hs. rewrite Z2 in Hs. discriminate.
  - intros j. unfold s'. cbn. destruct (j =? i) eqn:Ej; auto. intros _. apply Nat.eqb_eq in Ej. now subst j.
  - intros j. unfold s'. cbn. destruct (j =? i) eqn:Ej; auto. cbn. congruence.
  - apply Forall_app. split; [|now apply (grows_fr G)]. unfold K1. apply Forall_app. split; [destruct (i_oc v); constructor; cbn; auto|].
    assert (Z : s_inner s' i = set_completed v) by (unfold s'; cbn; now rewrite Nat.eqb_refl).
    constructor; [unfold okf; rewrite Z; auto|]. constructor; [unfold okf; rewrite Z; auto|constructor].
  - intros l j Hl Hj. apply G. eauto.
  - change (s_nc s = num liv s' + S (nic K) + 0). lia.
  - change (s_nu s = num ope s' + 0). lia.
  - intros x Hx Hy. left. apply in_app_or in Hx. destruct Hx as [Hx|Hx]; [|eapply Q1; eauto]. exfalso.
    unfold K1 in Hx. destruct (i_oc v); cbn in Hx; intuition (subst; discriminate).
  - intros Ht. destruct (j_slab0 Ht) as [Z1 Z2]. change (s_slab s') with (s_slab s). split; [lia|].
    intros j. unfold s'. cbn. destruct (j =? i) eqn:Ej; auto. apply Nat.eqb_eq in Ej. subst j. intros _. apply (Z2 i). auto.
  - intros Hx. specialize (j_lim0 Hx). cbn [length]. lia.
  - intros j. unfold s'. cbn [s_inner log with_inner]. destruct (j =? i) eqn:Ej.
    + intros _. right. apply Nat.eqb_eq in Ej. subst j. unfold K1. rewrite <- app_assoc. apply before_app; [now destruct (i_oc v)|]. cbn. now rewrite Nat.eqb_refl.
    + intros Hj. destruct (j_comp0 j Hj) as [Z|Z]; auto. right. cbn in Z. rewrite Nat.eqb_sym, Ej in Z. apply before_app; auto. unfold K1. now destruct (i_oc v).
  - intros j. unfold s'. cbn [s_inner log with_inner]. destruct (j =? i) eqn:Ej; auto.
  - destruct j_mir0. constructor; cbn.
    + intros j. autorewrite with snoc. rewrite orb_false_r. destruct (j =? i) eqn:Ej; auto. apply Nat.eqb_eq in Ej. subst j. apply (m_sub0 i).
    + intros j. autorewrite with snoc. rewrite (Nat.eqb_sym i j). destruct (j =? i) eqn:Ej; cbn; [now rewrite orb_true_r|rewrite orb_false_r; auto].
    + intros j. autorewrite with snoc. rewrite orb_false_r. destruct (j =? i) eqn:Ej; auto. apply Nat.eqb_eq in Ej. subst j. apply (m_end0 i).
    + autorewrite with snoc. lia.
    + autorewrite with snoc. now rewrite orb_false_r.
    + autorewrite with snoc. now rewrite app_nil_r.
    + rewrite m_shut0. split; apply open_same; autorewrite with snoc; now rewrite app_nil_r.
  - apply always_snoc; auto. split; exact I.
Qed.

Lemma completed_I1 : forall i K s s' K1, I1 (KInnerCompleted i :: K) s -> step (KInnerCompleted i) s = Some (s', K1) -> I1 (K1 ++ K) s'.
Proof.
  intros i K s s' K1 H R. cbn [HoModel.step] in R. destruct (I1_top H) as (T1 & T2 & T3).
  assert (HK : Forall (okf s) K) by (pose proof (j_fr H) as F; now inversion F).
  destruct (quiet H eq_refl) as (Q1 & Q2 & Q3).
  destruct (s_nc s) as [|nc] eqn:En; [discriminate|].
  assert (H' : I1 K (with_counts s nc (s_nu s))).
  { destruct H. rewrite pend_cons, nic_cons, nadv_cons, T2, T3 in *. cbn [pend1 is_adv is_ic app Nat.add length] in *.
    constructor; rewrite ?T2, ?T3; auto using lowly_tl.
    - change (nc = num liv s + nic K + 0). lia.
    - intros x Hx Hy. left. eapply Q1; eauto.
    - revert j_mir0. apply mirror_same; auto. }
  set (s1 := with_counts s nc (s_nu s)) in *.
  assert (Hall : forall d, I1 (KTell Cmp :: K) (with_down s1 d)).
  { intros d. apply I1_down; [|cbn; auto]. destruct H'. constructor; auto.
    constructor; cbn; auto. }
  destruct (can_downstream_complete s1); [|injection R as <- <-; exact H'].
  destruct (set_complete (s_down s1)) as [d|]; [|discriminate]. injection R as <- <-. apply Hall.
Qed.

Ltac fr := repeat (apply Forall_cons; [cbn [okf]; auto|]); try apply Forall_nil.
Ltac fin_ := solve [fr | cbn; intuition (subst; try discriminate; auto) | auto].
Lemma step_I1 : forall c K s s' K1, I1 (c :: K) s -> step c s = Some (s', K1) -> I1 (K1 ++ K) s'.
Proof.
  intros c K s s' K1 H R. assert (F := j_fr H). apply Forall_inv in F.
  assert (Lim := j_lim H). destruct (I1_top H) as (T1 & T2 & T3). rewrite pend_cons, nadv_cons, T2, T3 in Lim.
  destruct c as [m| | | |i l|i m|i|i|i|i|i| |i| |i]; cbn [okf] in F.
  - eapply tell_I1; eauto.
  - (* KTear *) cbn [HoModel.step] in R. destruct (s_torn s) eqn:Et.
    + injection R as <- <-. eapply I1_pop; eauto; discriminate.
    + injection R as <- <-.
      assert (Hs : shut s = true) by (destruct (j_end H KTear (or_introl eq_refl) eq_refl); auto; discriminate).
      apply I1_tear; auto. eapply I1_calls; eauto; try reflexivity; try discriminate.
      * change (s_slab (with_torn s true)) with (s_slab s). induction (concat (s_slab s)); cbn; auto.
      * assert (Q : forallb lowly (map (@KUnsubFrom A E) (concat (s_slab (with_torn s true))) ++ [KTearEnd]) = true); [|now apply lowly_tl].
        induction (concat _); cbn; auto.
      * rewrite pend_app, app_nil_r. induction (concat _); cbn; auto.
      * rewrite nic_app. replace (nic [KTearEnd]) with 0 by reflexivity. rewrite Nat.add_0_r. induction (concat _); cbn; auto.
      * rewrite nadv_app. replace (nadv [KTearEnd]) with 0 by reflexivity. rewrite Nat.add_0_r. induction (concat _); cbn; auto.
      * apply Forall_app. split; [|fr]. apply Forall_forall. intros x Hx. apply in_map_iff in Hx. destruct Hx as (j & <- & Hj).
        apply in_concat in Hj. destruct Hj as (l & Hl & Hj). apply (j_slabids H l); auto.
  - (* KTearEnd *) injection R as <- <-.
    assert (Hs : shut s = true) by (destruct (j_end H KTearEnd (or_introl eq_refl) eq_refl); auto; discriminate).
    apply I1_up; auto using sun_c.
    eapply I1_pop; eauto; discriminate.
  - eapply advance_I1; eauto.
  - eapply create_I1; eauto.
  - (* KCall *) cbn [HoModel.step] in R. destruct (i_closed (s_inner s i)) eqn:Ec; [|destruct (i_sub (s_inner s i)) eqn:Es]; cbn [orb negb] in R.
    + injection R as <- <-. eapply I1_pop; eauto; discriminate.
    + destruct m as [a|e| |].
      * injection R as <- <-. apply I1_log; [reflexivity|]. eapply I1_calls; eauto; try reflexivity; try discriminate; auto.
        all: fin_.
      * destruct (set_error (s_down (log s (TIn i (Err e))))) as [d|] eqn:Ed; [|discriminate]. injection R as <- <-.
        apply I1_down; [|right; reflexivity]. apply I1_drain. apply I1_log; [reflexivity|].
        eapply I1_calls; eauto; try reflexivity; try discriminate; auto; fin_.
      * injection R as <- <-. apply complete_I1; auto.
      * injection R as <- <-. apply I1_log; [reflexivity|]. eapply I1_calls; eauto; try reflexivity; try discriminate; auto.
        all: fin_.
    + injection R as <- <-. eapply I1_pop; eauto; discriminate.
  - (* KAfterNext *) cbn [HoModel.step] in R. destruct (t_shut (s_told s)) eqn:Es; injection R as <- <-.
    + apply I1_down; [|auto]. eapply I1_calls; eauto; try reflexivity; try discriminate.
      all: fin_.
    + eapply I1_pop; eauto; discriminate.
  - eapply completed_I1; eauto.
  - eapply do_unsub_I1; eauto; try reflexivity. congruence.
  - cbn [HoModel.step] in R. destruct (existsb (Nat.eqb i) (s_busy s)).
    + injection R as <- <-. eapply I1_pop; eauto; discriminate.
    + eapply do_unsub_I1; eauto; try reflexivity. discriminate.
  - (* KOnUnsub *) destruct F as [F1 F2]. cbn [HoModel.step] in R. injection R as <- <-.
    set (b := (_ && _)%bool).
    assert (Hb : b = true -> shut s = false -> num liv s + 1 <= L).
    { intros Hb Hs. apply andb_true_iff in Hb. destruct Hb as [Hb _]. apply Nat.eqb_eq in Hb.
      assert (Ht : s_torn s = false) by (destruct (s_torn s) eqn:Q; auto; apply (j_torn H) in Q; congruence).
      destruct (j_slab H Ht) as [Z1 Z2]. specialize (Z2 i F1).
      replace (i_key (s_inner s i) <? length (s_slab s)) with true in Hb by (symmetry; apply Nat.ltb_lt; auto).
      assert (num liv s < num i_sub s).
      { apply (@cnt_lt _ _ _ i); auto; [|apply (j_sub H); auto|unfold liv; rewrite F2; apply andb_false_r].
        intros j _. unfold liv. destruct (i_sub (s_inner s j)); auto. }
      lia. }
    eapply I1_stack; eauto; try reflexivity; try discriminate.
    + now destruct b.
    + now destruct b.
    + now destruct b.
    + now destruct b.
    + destruct b; fr.
    + destruct b; cbn; intuition (subst; discriminate).
    + intros Hs. specialize (Lim Hs). destruct b; unfold nadv; cbn [app filter is_adv length]; auto. cbn [is_adv] in Lim. lia.
  - (* KOnUnsub2 *) injection R as <- <-. set (b := (_ && _)%bool). eapply I1_calls; eauto; try reflexivity; try discriminate.
    + now destruct b.
    + now destruct b.
    + now destruct b.
    + now destruct b.
    + now destruct b.
    + destruct b; fr.
    + destruct b; cbn; auto; contradiction.
  - (* KSubscribed *) cbn [HoModel.step] in R. destruct (i_closed (s_inner s i)) eqn:Ec.
    + injection R as <- <-. eapply I1_pop; eauto; discriminate.
    + destruct (nth_error (s_slab s) (i_key (s_inner s i))) as [l|] eqn:En; injection R as <- <-.
      * apply I1_slab_add; auto. eapply I1_pop; eauto; discriminate.
      * eapply I1_calls; eauto; try reflexivity; try discriminate; auto; fin_.
  - contradiction.
  - injection R as <- <-. apply I1_busy. eapply I1_pop; eauto; discriminate.
Qed.

(** *** What happens from outside. *)
Lemma I1_push0 : forall K1 s, I1 [] s -> forallb silent K1 = true \/ (exists i c, K1 = [KCall i c; KFree i] /\ (i_completed (s_inner s i) = true -> i_closed (s_inner s i) = true)) ->
  forallb lowly (tl K1) = true -> pend K1 = [] -> nic K1 = 0 -> nadv K1 = 0 -> Forall (okf s) K1 ->
  (forall x, In x K1 -> ends x = true -> shut s = true \/ top_closing K1 = true) -> I1 K1 s.
Proof.
  intros K1 s H Hsil H1 H2 H3 H4 H5 H6. destruct H. unfold pend, nic, nadv in *. cbn [flat_map filter length app] in *.
  constructor; unfold pend, nic, nadv; rewrite ?H2, ?H3, ?H4; auto.
  - intros Hd. destruct (j_down0 Hd); auto. discriminate.
  - intros Hd. destruct (j_uperr0 Hd); auto. discriminate.
  - intros i Hi. destruct (j_comp0 i Hi); auto. discriminate.
Qed.

Lemma perform_I1 : forall a s s' K, I1 [] s -> perform (Concurrent L) a s = Some (s', K) -> I1 K s'.
Proof.
  intros a s s' K H R.
  assert (Hsame : I1 [] s) by auto.
  destruct a as [l|e| | |i c]; cbn [perform] in R.
  - destruct (is_torn (Concurrent L) s) eqn:Et; [injection R as <- <-; auto|].
    cbn [is_torn] in Et. apply orb_false_iff in Et. destruct Et as [Es Et].
    set (i := s_arrived s) in *. cbv zeta in R. set (s1 := log (with_arrived s (S i)) (TArrive i)) in *.
    assert (Hno : s_inner s i = no_inner).
    { apply (j_none H). destruct (i_sub (s_inner s i)) eqn:Q; auto. apply (j_sub H) in Q. unfold i in Q. lia. }
    assert (Hn : forall f, f no_inner = false -> num f s1 = num f s).
    { intros f Hf. unfold num. cbn [s_arrived s1 log with_arrived s_inner]. rewrite cnt_S. fold i. rewrite Hno, Hf. lia. }
    assert (Hlv := Hn liv eq_refl). assert (Hop := Hn ope eq_refl). assert (Hsb := Hn i_sub eq_refl).
    assert (M1 : mirror s1).
    { destruct (j_mir H). constructor; cbn; intros; autorewrite with snoc; rewrite ?orb_false_r, ?app_nil_r; auto.
      - unfold i. lia.
      - rewrite m_shut0. split; apply open_same; rewrite outs_snoc, app_nil_r; auto. }
    assert (TR : always good (s_tr s1)).
    { apply always_snoc; [apply (j_tr H)|]. split; exact I. }
    destruct H. unfold pend, nic, nadv in *. cbn [flat_map filter length app top_closing] in *.
    assert (FD : is_closed (s_down s) = true -> shut s = true) by (intros Q; destruct (j_down0 Q); auto; discriminate).
    assert (FU : is_errored (s_up s) = true -> shut s = true) by (intros Q; destruct (j_uperr0 Q); auto; discriminate).
    assert (FC : forall j, i_completed (s_inner s j) = true -> i_closed (s_inner s j) = true) by (intros j Q; destruct (j_comp0 j Q); auto; discriminate).
    assert (SL : s_torn s = false -> length (s_slab s) = num i_sub s1 /\ (forall i, i_sub (s_inner s i) = true -> i_key (s_inner s i) < length (s_slab s))) by (rewrite Hsb; auto).
    destruct (s_nc s1 <? L) eqn:En; injection R as <- <-.
    + apply Nat.ltb_lt in En. change (s_nc s1) with (s_nc s) in *.
      constructor; unfold pend, nic, nadv; cbn [flat_map filter length app top_closing pend1 is_adv is_ic tl forallb]; auto.
      * constructor; auto. intros Q. apply j_wait0 in Q. unfold i in Q. cbn in Q. lia.
      * intros j [<-|Hj]; [cbn; auto|]. destruct (j_wait0 j Hj). cbn. auto.
      * intros j Hj. cbn. specialize (j_sub0 j Hj). unfold i. lia.
      * repeat constructor.
      * change (S (s_nc s) = num liv s1 + 0 + 1). lia.
      * change (S (s_nu s) = num ope s1 + 1). lia.
      * intros x [<-|[]]. discriminate.
      * intros _. change (num liv s1 + 0 + 1 <= L). lia.
      * revert M1. apply mirror_same; auto.
    + apply Nat.ltb_ge in En. change (s_nc s1) with (s_nc s) in *.
      constructor; unfold pend, nic, nadv; cbn [flat_map filter length app top_closing pend1 is_adv is_ic tl forallb]; auto.
      * cbn [s_queue with_queue]. rewrite map_app. cbn [map fst].
        apply NoDup_rev in j_nodup0. rewrite <- (rev_involutive (map fst (s_queue s) ++ [i])). apply NoDup_rev. rewrite rev_app_distr. cbn. constructor; auto.
        intros Q. apply in_rev in Q. apply j_wait0 in Q. unfold i in Q. lia.
      * intros j. cbn [s_queue with_queue]. rewrite map_app. cbn [map fst].
        intros Hj. apply in_app_or in Hj. destruct Hj as [Hj|[<-|[]]]; [|cbn; auto]. destruct (j_wait0 j Hj). cbn. auto.
      * intros j Hj. cbn. specialize (j_sub0 j Hj). unfold i. lia.
      * change (s_nc s = num liv s1 + 0 + 0). lia.
      * change (s_nu s = num ope s1 + 0). lia.
      * intros _. change (num liv s1 + 0 + 0 <= L). specialize (j_lim0 Es). lia.
      * revert M1. apply mirror_same; auto.
  - destruct (is_torn (Concurrent L) s) eqn:Et; [injection R as <- <-; auto|].
    destruct (set_error (s_up (log s (TUp (Err e))))) as [u|] eqn:Eu; [|discriminate]. injection R as <- <-.
    apply se_some in Eu. destruct Eu as (U1 & U2 & U3 & U4). cbn in U1, U3, U4. unfold is_closed, is_finished in U1. apply orb_false_iff in U1. destruct U1 as [U1 _].
    apply I1_up; [|exact U3|right; reflexivity|congruence]. apply I1_drain. apply I1_log; [reflexivity|].
    apply I1_push0; auto; try reflexivity. repeat constructor.
  - destruct (is_torn (Concurrent L) s) eqn:Et; [injection R as <- <-; auto|].
    destruct (set_complete (s_up (log s (TUp Cmp)))) as [u|] eqn:Eu; [|discriminate].
    destruct (set_unsubscribe u) as [u'|] eqn:Eu'; [|discriminate].
    apply sc_some in Eu. destruct Eu as (U1 & U2 & U3 & U4). apply su_some in Eu'. destruct Eu' as (V1 & V2 & V3 & V4).
    assert (H' : I1 [] (with_up (log s (TUp Cmp)) u')).
    { destruct H. constructor; auto.
      - intros Q. apply j_uperr0. cbn in Q. rewrite V3, U3 in Q. auto.
      - intros _. left. cbn. congruence.
      - destruct j_mir0. constructor; cbn; intros; autorewrite with snoc; rewrite ?orb_false_r, ?app_nil_r, ?orb_true_r, ?Nat.add_0_r; auto; [congruence|].
        rewrite m_shut0. split; apply open_same; rewrite outs_snoc, app_nil_r; auto.
      - apply always_snoc; auto. split; exact I. }
    destruct (can_downstream_complete _); injection R as <- <-; auto.
    apply I1_push0; auto; try reflexivity. repeat constructor.
  - destruct (is_torn (Concurrent L) s) eqn:Et; [injection R as <- <-; auto|].
    unfold unsubscribe in R. replace (is_torn (Concurrent L) (log s (TUp Uns))) with false in R by (symmetry; exact Et). injection R as <- <-.
    apply I1_log; [reflexivity|]. apply I1_push0; auto; try reflexivity. repeat constructor.
  - destruct (i_closed (s_inner s i)) eqn:Ec; [injection R as <- <-; auto|]. destruct (i_sub (s_inner s i)) eqn:Es; [|injection R as <- <-; auto].
    injection R as <- <-. apply I1_busy. apply I1_push0; auto; try reflexivity.
    + right. exists i, c. split; auto. intros Q. destruct (j_comp H i Q); auto. discriminate.
    + repeat constructor.
    + cbn. intuition (subst; discriminate).
Qed.

Lemma init_I1 : I1 [] init.
Proof.
  constructor; cbn; auto; try discriminate; try contradiction.
  - constructor.
  - intros _. split; [reflexivity|discriminate].
  - intros _. unfold num, nadv, pend. cbn. lia.
  - constructor; cbn; auto; try reflexivity. split; auto using open_nil.
  - apply always_nil.
Qed.

Lemma flatten_I1 : forall fuel h s, flatten down (Concurrent L) fuel h init = Fine s -> I1 [] s.
Proof.
  intros fuel h s R. eapply (@flatten_inv A E down (Concurrent L) (fun _ _ => True) I1); eauto using init_I1.
  - apply step_I1.
  - intros a s0 s1 K1 H _ Hp. eapply perform_I1; eauto.
Qed.

(** At most [L] at a time, each at most once. *)
Lemma concurrent_limit : forall fuel h s, flatten down (Concurrent L) fuel h init = Fine s -> always (limited down L) (s_tr s).
Proof. intros fuel h s R p e q Hp. exact (proj1 (j_tr (flatten_I1 _ _ R) p e q Hp)). Qed.
Lemma concurrent_once : forall fuel h s, flatten down (Concurrent L) fuel h init = Fine s -> always (@once A E) (s_tr s).
Proof. intros fuel h s R p e q Hp. exact (proj2 (j_tr (flatten_I1 _ _ R) p e q Hp)). Qed.
End Conc.
