(** Proofs about [HoModel]: the concurrent subscriber with a limit of one does not panic. *)
From Coq Require Import NArith.
From Verif Require Import Base SubscrModel LifeModel CombModel HoModel HoSpec LifeProofs HoProofs HoConc HoConc2 HoConc3.
Set Implicit Arguments.

Lemma cnt_two : forall f n i j, i < n -> j < n -> f i = true -> f j = true -> cnt f n <= 1 -> i = j.
Proof.
  intros f n i j Hi Hj Fi Fj H. destruct (Nat.eq_dec i j) as [|Hn]; auto. exfalso.
  pose proof (@cnt_set f (fun x => if x =? i then false else f x) n i Hi) as Q. cbn beta in Q. rewrite Nat.eqb_refl, Fi in Q.
  specialize (Q (fun x Hx => ltac:(apply Nat.eqb_neq in Hx; now rewrite Hx))).
  assert (0 < cnt (fun x => if x =? i then false else f x) n); [|lia].
  apply (@cnt_pos _ _ j); auto. replace (j =? i) with false; auto. symmetry. apply Nat.eqb_neq. auto.
Qed.

Section Conc4.
Variables A E : Type.
Variable down : list (ncall A E) -> bool.
Notation st := (HoModel.st A E).
Notation cmd := (HoModel.cmd A E).
Notation step := (HoModel.step down (Concurrent 1)).
Notation I1 := (HoConc.I1 down 1).
Implicit Types (s : st) (K : list cmd) (c : cmd).

Definition co (v : inner) : bool := i_sub v && i_completed v && negb (i_closed v).
Lemma ope_split : forall v, ope v = true -> liv v = true \/ co v = true.
Proof. intros [a b c k x y]. unfold ope, liv, co. cbn. destruct a, b, c; cbn; auto. Qed.
Lemma liv_ope : forall v, liv v = true -> ope v = true.
Proof. intros [a b c k x y]. unfold ope, liv. cbn. destruct a, b, c; cbn; auto. Qed.
Lemma liv_co : forall v, liv v = true -> co v = false.
Proof. intros [a b c k x y]. unfold co, liv. cbn. destruct a, b, c; cbn; auto. Qed.
Lemma co_ope : forall v, co v = true -> ope v = true.
Proof. intros [a b c k x y]. unfold ope, co. cbn. destruct a, b, c; cbn; auto. Qed.
Definition D s : bool := is_closed (s_down s).

Definition endsT c : bool := match c with KTell _ => true | _ => ends c end.
Fixpoint rest K : list cmd := match K with c :: K' => if endsT c then rest K' else K | [] => [] end.
Definition noan K : Prop := forall j, ~ In (KAfterNext j) K.
Fixpoint fin K : Prop := match K with [] => True | c :: K' => (endsT c = true -> rest K' = []) /\ fin K' end.
Fixpoint ord K : Prop :=
  match K with
  | [] => True
  | c :: K' => ord K' /\
      match c with
      | KSubscribed i => (forall m, ~ In (KCall i m) K') /\ ~ In (KUnsub i) K'
      | KFree _ => K' = []
      | _ => True
      end
  end.
Definition others i s : nat := let n := length (s_slab s) in if i_key (s_inner s i) <? n then n - 1 else n.

Lemma rest_in : forall c K, endsT c = false -> In c K -> In c (rest K).
Proof.
  intros c K Hc. induction K as [|x K IH]; cbn [rest]; auto. intros [->|H]; [rewrite Hc; now left|].
  destruct (endsT x); [auto|now right].
Qed.
Lemma in_rest : forall c K, In c (rest K) -> In c K.
Proof. intros c K. induction K as [|x K IH]; cbn [rest]; auto. destruct (endsT x); cbn; auto. Qed.
Lemma rest_app : forall K1 K, forallb endsT K1 = true -> rest (K1 ++ K) = rest K.
Proof. induction K1 as [|c K1 IH]; cbn; intros K H; auto. apply andb_true_iff in H. destruct H as [-> H]. auto. Qed.
Lemma rest_fin : forall K, rest K = [] -> fin K.
Proof. induction K as [|c K IH]; cbn; auto. destruct (endsT c); [auto|discriminate]. Qed.
Lemma fin_rest : forall K, fin K -> fin (rest K).
Proof. induction K as [|c K IH]; cbn; auto. intros [H1 H2]. destruct (endsT c) eqn:Q; [auto|]. cbn. rewrite Q. split; [discriminate|auto]. Qed.
Lemma fin_app : forall K1 K, forallb (fun c => negb (endsT c)) K1 = true -> fin K -> fin (K1 ++ K).
Proof.
  induction K1 as [|c K1 IH]; cbn; intros K H F; auto. apply andb_true_iff in H. destruct H as [H1 H2]. apply negb_true_iff in H1.
  split; auto. congruence.
Qed.
Lemma rest_endsT : forall c K, rest K = [] -> In c K -> endsT c = true.
Proof. intros c K H Hc. destruct (endsT c) eqn:Q; auto. apply (@rest_in c K Q) in Hc. rewrite H in Hc. destruct Hc. Qed.

Lemma fin_top : forall K c K', fin K -> K = c :: K' -> endsT c = true -> rest K = [].
Proof. intros K c K' F -> Hc. cbn [fin] in F. destruct F as [F _]. cbn [rest]. rewrite Hc. auto. Qed.

Record Z K s : Prop := {
  z_one : num liv s + nadv K + length (pend K) <= 1;
  z_zone : noan (rest K) \/ exists j K', rest K = KAfterNext j :: K' /\ noan K';
  z_next : forall a K', K = KTell (Nxt a) :: K' -> exists j K2, K' = KAfterNext j :: K2;
  z_an : forall j, In (KAfterNext j) K -> liv (s_inner s j) = true;
  z_ord : ord K;
  z_call : forall i m, In (KCall i m) K -> i_sub (s_inner s i) = true;
  z_ou : forall i, ~ In (KOnUnsub i) (tl K);
  z_busy : forall i, In (KAfterNext i) K \/ (exists m, In (KCall i m) K) \/ co (s_inner s i) = true ->
             In i (s_busy s) \/ (~ In i (concat (s_slab s)) /\ ~ In (KUnsubFrom i) K);
  z_free : forall i, In i (s_busy s) -> In (KFree i) K;
  z_tear : shut s = true -> s_torn s = false -> exists K', K = KTear :: K';
  z_fin : D s = false -> fin (rest K) /\
            (forall c K', K = c :: K' -> endsT c = true -> rest K = [] \/ (exists j K2, rest K = KAfterNext j :: K2) \/ forall i, ope (s_inner s i) = false);
  z_two : D s = false -> shut s = true \/ top_closing K = true -> forall i, co (s_inner s i) = true ->
            (exists j, In (KAfterNext j) K) \/ (s_torn s = true /\ 1 <= length (s_slab s) /\ forall j, liv (s_inner s j) = true -> 2 <= length (s_slab s));
  z_in : D s = false -> forall j, liv (s_inner s j) = true ->
           In (KSubscribed j) K \/ In j (concat (s_slab s)) \/ In (KUnsubFrom j) K \/ (In (KAfterNext j) K /\ shut s = true) \/ In (KUnsub j) K;
  z_live : D s = false -> s_torn s = true -> forall j, liv (s_inner s j) = true ->
           1 <= length (s_slab s) \/ In (KAfterNext j) K \/ (rest K = [] /\ In (KUnsubFrom j) K);
  z_down : D s = true -> forall i, ope (s_inner s i) = true -> before i K = true;
  z_on : forall i K', K = KOnUnsub i :: K' -> D s = false -> others i s = 0 -> num liv s = 0;
  z_adv : 0 < nadv K + length (pend K) -> D s = false;
  z_err : D s = false -> is_errored (s_up s) = true -> rest K = [] /\ (s_torn s = true -> s_slab s = [])
}.

Lemma live_lt : forall K s i, I1 K s -> ope (s_inner s i) = true -> i < s_arrived s.
Proof. intros K s i H Hi. apply (j_sub H). unfold ope in Hi. apply andb_true_iff in Hi. tauto. Qed.
Lemma live_eq : forall K s i j, I1 K s -> Z K s -> liv (s_inner s i) = true -> liv (s_inner s j) = true -> i = j.
Proof.
  intros K s i j H H0 Hi Hj. apply (@cnt_two (fun x => liv (s_inner s x)) (s_arrived s)); auto.
  - eapply live_lt; eauto using liv_ope.
  - eapply live_lt; eauto using liv_ope.
  - pose proof (z_one H0). unfold num in *. lia.
Qed.
Lemma num_live : forall K s i, I1 K s -> liv (s_inner s i) = true -> 0 < num liv s.
Proof. intros K s i H Hi. apply (@num_pos A E _ i); auto. eapply live_lt; eauto using liv_ope. Qed.
Lemma no_live : forall K s i, I1 K s -> num liv s = 0 -> liv (s_inner s i) = false.
Proof. intros K s i H Hn. destruct (liv (s_inner s i)) eqn:Q; auto. pose proof (num_live i H Q). lia. Qed.
Lemma co_before : forall K s i, I1 K s -> co (s_inner s i) = true -> before i K = true.
Proof.
  intros K s i H Hi. unfold co in Hi. rewrite !andb_true_iff in Hi. destruct Hi as [[_ H1] H2]. apply negb_true_iff in H2.
  destruct (j_comp H i H1); congruence.
Qed.
Lemma before_in : forall i K, before i K = true -> In (KUnsub i) K.
Proof.
  intros i. induction K as [|c K IH]; cbn; intros H; [discriminate|]. destruct c; cbn in *; auto.
  - destruct (i0 =? i); [discriminate|auto].
  - destruct (i0 =? i) eqn:Q; auto. apply Nat.eqb_eq in Q. subst. auto.
Qed.
(** Above the rest of a call, nothing else happens. *)
Lemma alone_noan : forall c K s, Z (c :: K) s -> endsT c = false -> noan K.
Proof.
  intros c K s H Hc j Hj. destruct (z_zone H) as [Q|(i & K' & Q & Q2)]; cbn [rest] in Q; rewrite Hc in Q.
  - apply (Q j). now right.
  - inversion Q; subst. exact (Q2 j Hj).
Qed.
Lemma lowly_top : forall c K s K1, I1 (c :: K) s -> (forall m, ~ In (KTell m) K1) -> top_closing (K1 ++ K) = false.
Proof.
  intros c K s K1 H H1. destruct K1 as [|x K1]; cbn.
  - pose proof (j_tail H) as T. cbn in T. destruct K as [|y K]; auto. cbn in T. destruct y; auto. discriminate.
  - destruct x; auto. destruct (H1 c0). now left.
Qed.
Lemma lowly_tell : forall c K s m, I1 (c :: K) s -> ~ In (KTell m) K.
Proof. intros c K s m H Hm. pose proof (j_tail H) as T. cbn in T. rewrite forallb_forall in T. now specialize (T _ Hm). Qed.

Definition plain c : bool := match c with KAdvance | KCreate _ _ | KInnerCompleted _ | KUnsub _ | KOnUnsub2 => true | _ => false end.
Lemma plain_in : forall K1 x, forallb plain K1 = true -> plain x = false -> ~ In x K1.
Proof. intros K1 x H Hx Hi. rewrite forallb_forall in H. apply H in Hi. congruence. Qed.
Lemma plain_ends : forall K1, forallb plain K1 = true -> forallb (fun c => negb (endsT c)) K1 = true.
Proof. intros K1 H. rewrite forallb_forall in *. intros x Hx. specialize (H x Hx). destruct x; try discriminate; auto. Qed.
Lemma ord_plain : forall K1 K, forallb plain K1 = true -> ord K -> ord (K1 ++ K).
Proof.
  induction K1 as [|c K1 IH]; cbn; intros K H O; auto. apply andb_true_iff in H. destruct H as [H1 H2].
  split; auto. destruct c; try discriminate; auto.
Qed.
Lemma before_plain : forall i K1 K, forallb plain K1 = true -> before i K = true -> before i (K1 ++ K) = true.
Proof.
  intros i K1 K H. apply before_app. rewrite forallb_forall in *. intros x Hx. specialize (H x Hx). destruct x; try discriminate; auto.
Qed.
Lemma rest_plain : forall K1 K, forallb plain K1 = true -> K1 <> [] -> rest (K1 ++ K) = K1 ++ K.
Proof. intros [|c K1] K H Hn; [congruence|]. cbn in *. destruct c; try discriminate; auto. Qed.

(** Only the stack changes. *)
Record like s s' : Prop := {
  l_inner : s_inner s' = s_inner s; l_arr : s_arrived s' = s_arrived s; l_slab : s_slab s' = s_slab s; l_busy : s_busy s' = s_busy s;
  l_torn : s_torn s' = s_torn s; l_shut : shut s' = shut s; l_down : D s' = D s; l_up : is_errored (s_up s') = is_errored (s_up s) }.
Lemma like_refl : forall s, like s s. Proof. constructor; auto. Qed.

Lemma Z_plain : forall c K K1 s s', I1 (c :: K) s -> Z (c :: K) s -> like s s' -> forallb plain K1 = true ->
  (endsT c = true -> K1 = []) ->
  (forall i, c = KAfterNext i -> shut s = false) ->
  (forall i, c = KUnsubFrom i -> liv (s_inner s i) = true -> D s = false -> In (KAfterNext i) K /\ shut s = true) ->
  (forall i, c = KSubscribed i -> liv (s_inner s i) = false \/ In (KUnsub i) K1) ->
  (forall i, c = KUnsub i -> ope (s_inner s i) = false) ->
  (c = KTear -> s_torn s = true) -> (forall i, c <> KFree i) ->
  num liv s + nadv K1 + length (pend K1) <= 1 -> (0 < nadv K1 + length (pend K1) -> D s = false) ->
  Z (K1 ++ K) s'.
Proof.
  intros c K K1 s s' H H0 Lk P1 Pe Pa Pu Ps Pk Pt Pf Pn Pd. destruct (I1_top H) as (T1 & T2 & T3).
  destruct Lk as [L1 L2 L3 L4 L5 L6 L7 L8].
  assert (Nl : num liv s' = num liv s) by (unfold num; now rewrite L1, L2).
  assert (Lo : lowly c = true -> True) by auto.
  assert (In_ : forall x, plain x = false -> In x (K1 ++ K) -> In x (c :: K)).
  { intros x Hx Hi. apply in_app_or in Hi. destruct Hi as [Hi|Hi]; [destruct (plain_in _ _ P1 Hx Hi)|now right]. }
  assert (Tc : top_closing (K1 ++ K) = false).
  { eapply lowly_top; eauto. intros m. now apply plain_in. }
  assert (Na : endsT c = false -> noan (K1 ++ K)).
  { intros Hc j Hj. apply in_app_or in Hj. destruct Hj as [Hj|Hj]; [destruct (plain_in K1 (KAfterNext j) P1 eq_refl Hj)|]. exact (alone_noan H0 Hc j Hj). }
  assert (Kp : forall x, x <> c -> In x (c :: K) -> In x (K1 ++ K)) by (intros x Hx [Q|Q]; [congruence|apply in_or_app; auto]).
  assert (Rest : endsT c = true -> rest (K1 ++ K) = rest (c :: K)) by (intros Hc; rewrite (Pe Hc); cbn; now rewrite Hc).
  constructor; rewrite ?L1, ?L3, ?L4, ?L5, ?L6, ?L7, ?L8, ?Nl.
  - rewrite nadv_app, pend_app, T2, T3, app_nil_r. lia.
  - destruct (endsT c) eqn:Hc; [rewrite (Rest eq_refl); apply (z_zone H0)|]. left. intros j Hj. apply in_rest in Hj. exact (Na eq_refl j Hj).
  - intros a K' Q. exfalso. destruct K1 as [|x K1]; cbn in Q.
    + apply (@lowly_tell c K s (Nxt a) H). rewrite Q. now left.
    + inversion Q; subst. discriminate.
  - intros j Hj. apply (z_an H0). apply In_; auto.
  - apply ord_plain; auto. apply (z_ord H0).
  - intros i m Hi. apply (z_call H0 i m). apply In_; auto.
  - intros i Hi. apply (z_ou H0 i). cbn [tl]. destruct K1 as [|x K1]; cbn in Hi.
    + destruct K; cbn in *; auto.
    + apply in_app_or in Hi. destruct Hi as [Hi|Hi]; auto. exfalso. apply (@plain_in (x :: K1) (KOnUnsub i) P1 eq_refl). now right.
  - intros i Hi. assert (Hi' : In (KAfterNext i) (c :: K) \/ (exists m, In (KCall i m) (c :: K)) \/ co (s_inner s i) = true).
    { destruct Hi as [Hi|[(m & Hi)|Hi]]; eauto. }
    destruct (z_busy H0 i Hi') as [Q|[Q1 Q2]]; [now left|]. right. split; [exact Q1|]. intros Q. apply Q2. apply In_; auto.
  - intros i Hi. apply (z_free H0) in Hi. apply Kp; auto.
  - intros Q1 Q2. destruct (z_tear H0 Q1 Q2) as (K' & Q). inversion Q; subst. rewrite Pt in Q2; auto. discriminate.
  - intros HD. destruct (z_fin H0 HD) as [F1 F2]. destruct (endsT c) eqn:Hc.
    + rewrite (Rest eq_refl). split; auto. intros x K' Q Hx. apply (F2 c K); auto.
    + cbn [rest] in F1. rewrite Hc in F1. cbn [fin] in F1. destruct F1 as [_ F1]. destruct K1 as [|y K1].
      * cbn [app]. split; [now apply fin_rest|]. intros x K' Q Hx. left. eapply fin_top; eauto.
      * rewrite rest_plain by (auto; discriminate). split; [apply fin_app; auto using plain_ends|]. intros x K' Q Hx. cbn in Q. inversion Q; subst.
        apply plain_ends in P1. cbn in P1. rewrite Hx in P1. discriminate.
  - rewrite Tc. intros HD [Hs|Hs]; [|discriminate]. intros i Hi. destruct (z_two H0 HD (or_introl Hs) i Hi) as [(j & Q)|Q]; auto.
    left. exists j. apply Kp; auto. intros Z0. symmetry in Z0. apply Pa in Z0. congruence.
  - intros HD j Hj. destruct (z_in H0 HD j Hj) as [Q|[Q|[Q|[[Q Q2]|Q]]]]; auto.
    + destruct Q as [Q|Q]; [|left; apply in_or_app; auto]. destruct (Ps j Q) as [Z0|Z0]; [congruence|]. do 4 right. apply in_or_app. auto.
    + destruct Q as [Q|Q]; [|do 2 right; left; apply in_or_app; auto]. destruct (Pu j Q Hj HD). do 3 right. left. split; auto. apply in_or_app. auto.
    + do 3 right. left. split; auto. apply Kp; auto. intros Z0. symmetry in Z0. apply Pa in Z0. congruence.
    + destruct Q as [Q|Q]; [|do 4 right; apply in_or_app; auto]. apply liv_ope in Hj. rewrite (Pk j Q) in Hj. discriminate.
  - intros HD Ht j Hj. destruct (z_live H0 HD Ht j Hj) as [Q|[Q|[Q1 Q2]]]; auto.
    + right. left. apply Kp; auto. intros Z0. symmetry in Z0. apply Pa in Z0. rewrite (j_torn H Ht) in Z0. discriminate.
    + right. right. cbn [rest] in Q1. destruct (endsT c) eqn:Hc; [|discriminate]. rewrite (Pe eq_refl). cbn [app]. split; auto.
      destruct Q2 as [Q2|Q2]; auto. destruct (Pu j Q2 Hj HD) as [Q3 _]. apply (@rest_in _ _ (eq_refl : endsT (KAfterNext j) = false)) in Q3. rewrite Q1 in Q3. destruct Q3.
  - intros HD i Hi. assert (Q := z_down H0 HD i Hi). apply before_plain; auto. apply before_tl in Q. destruct Q as [Q|Q]; auto.
    rewrite (Pk i Q) in Hi. discriminate.
  - intros i K' Q. exfalso. destruct K1 as [|x K1]; cbn in Q.
    + apply (z_ou H0 i). cbn. rewrite Q. now left.
    + inversion Q; subst. discriminate.
  - rewrite nadv_app, pend_app, T2, T3, app_nil_r, Nat.add_0_r. auto.
  - intros HD Hu. destruct (z_err H0 HD Hu) as [Q1 Q2]. split; auto. cbn [rest] in Q1. destruct (endsT c) eqn:Hc; [|discriminate].
    rewrite (Pe eq_refl). exact Q1.
Qed.

(** Unsubscribing an inner subscriber that is open. *)
Lemma Z_unsub : forall c i K s s' K1, I1 (c :: K) s -> Z (c :: K) s -> I1 (K1 ++ K) s' ->
  c = KUnsub i \/ (c = KUnsubFrom i /\ ~ In i (s_busy s)) -> i_sub (s_inner s i) = true -> i_closed (s_inner s i) = false ->
  do_unsub i s = Some (s', K1) -> Z (K1 ++ K) s'.
Proof.
  intros c i K s s' K1 H H0 H' Hc Hs Ho R. destruct (I1_top H) as (T1 & T2 & T3).
  unfold do_unsub in R. rewrite Ho in R. set (v := s_inner s i) in *. set (fire := negb (is_unsubscribed (s_down s)) && i_ou v) in *.
  destruct (minus_one (s_nu s)) as [nu|] eqn:Enu; [|discriminate].
  destruct (if i_completed v then Some (s_nc s) else minus_one (s_nc s)) as [nc|] eqn:Enc; [|discriminate].
  injection R as <- <-. set (s' := with_counts _ nc nu) in *. set (K1 := if fire then [KOnUnsub i] else []) in *.
  assert (Hv : ope v = true) by (unfold ope; now rewrite Hs, Ho).
  assert (Hlt : i < s_arrived s) by (apply (j_sub H); auto).
  assert (Hn : forall f, num f s' + (if f v then 1 else 0) = num f s + (if f (set_closed fire v) then 1 else 0)) by (intros f; apply (@cnt_inner f (s_arrived s) (s_inner s) i (set_closed fire v) Hlt)).
  assert (Hin : forall j, s_inner s' j = if j =? i then set_closed fire v else s_inner s j) by reflexivity.
  assert (Hnl : num liv s' + (if liv v then 1 else 0) = num liv s).
  { specialize (Hn liv). replace (liv (set_closed fire v)) with false in Hn by (unfold liv; cbn; now rewrite andb_false_r). lia. }
  assert (Li : forall j, liv (s_inner s' j) = true -> j <> i /\ liv (s_inner s j) = true).
  { intros j. rewrite Hin. destruct (j =? i) eqn:Q; [|apply Nat.eqb_neq in Q; auto]. unfold liv. cbn. rewrite andb_false_r. discriminate. }
  assert (Co : forall j, co (s_inner s' j) = true -> j <> i /\ co (s_inner s j) = true).
  { intros j. rewrite Hin. destruct (j =? i) eqn:Q; [|apply Nat.eqb_neq in Q; auto]. unfold co. cbn. rewrite andb_false_r. discriminate. }
  assert (Op : forall j, ope (s_inner s' j) = true -> j <> i /\ ope (s_inner s j) = true).
  { intros j. rewrite Hin. destruct (j =? i) eqn:Q; [|apply Nat.eqb_neq in Q; auto]. unfold ope. cbn. rewrite andb_false_r. discriminate. }
  assert (Can : can_downstream_unsubscribe s = is_errored (s_up s) || D s).
  { unfold can_downstream_unsubscribe, D. destruct (s_nu s); [discriminate|]. replace (S n =? 0) with false by reflexivity. now rewrite andb_false_r. }
  assert (HD : D s' = false -> D s = false /\ is_errored (s_up s) = false).
  { unfold D at 1. unfold s'. cbn [s_down with_counts with_down]. rewrite Can. destruct (is_errored (s_up s)), (D s) eqn:Q; cbn; auto; try (rewrite sun_cl; discriminate). }
  assert (HD' : D s' = true -> D s = true \/ is_errored (s_up s) = true).
  { unfold D at 1. unfold s'. cbn [s_down with_counts with_down]. rewrite Can. destruct (is_errored (s_up s)), (D s) eqn:Q; cbn; auto. unfold D in Q. congruence. }
  assert (Lv : (exists j, c = KUnsubFrom j) -> liv v = true).
  { intros [j Q]. destruct Hc as [Z0|[Z0 Nb]]; [congruence|]. destruct (ope_split v Hv) as [Z1|Z1]; auto. exfalso.
    destruct (z_busy H0 i (or_intror (or_intror Z1))) as [Z2|[_ Z2]]; [auto|]. apply Z2. left. auto. }
  assert (Na : noan K).
  { destruct Hc as [Z0|[Z0 Nb]]; [apply (alone_noan H0); now subst|]. intros j Hj. assert (Z1 := z_an H0 j (or_intror Hj)).
    assert (Z2 : liv v = true) by eauto. assert (j = i) by (apply (@live_eq _ _ _ _ H H0 Z1 Z2)). subst j.
    destruct (z_busy H0 i (or_introl (or_intror Hj))) as [Z3|[_ Z3]]; auto. apply Z3. left. auto. }
  assert (Fk : D s = false -> fin K).
  { intros Q. destruct (z_fin H0 Q) as [F1 F2]. destruct Hc as [Z0|[Z0 Nb]]; subst c; cbn [rest endsT ends] in F1, F2.
    - apply F1.
    - apply rest_fin. destruct (F2 _ _ eq_refl eq_refl) as [F|[(j & K2 & F)|F]]; auto.
      + exfalso. apply (Na j). apply in_rest. rewrite F. now left.
      + unfold v in Hv. rewrite F in Hv. discriminate. }
  assert (Nc : forall x, x <> c -> In x (c :: K) -> In x K) by (intros x Z1 [Z2|Z2]; [congruence|auto]).
  assert (P1 : pend (K1 ++ K) = []) by (rewrite pend_app, T2; unfold K1; now destruct fire).
  assert (P2 : nadv (K1 ++ K) = 0) by (rewrite nadv_app, T3; unfold K1; now destruct fire).
  assert (Kx : forall x, In x (K1 ++ K) -> x = KOnUnsub i \/ In x K).
  { intros x Hx. apply in_app_or in Hx. destruct Hx as [Hx|Hx]; auto. unfold K1 in Hx. destruct fire; [destruct Hx as [<-|[]]; auto|destruct Hx]. }
  constructor; rewrite ?P1, ?P2; cbn [length].
  - pose proof (z_one H0). lia.
  - left. intros j Hj. apply in_rest in Hj. apply Kx in Hj. destruct Hj as [Hj|Hj]; [discriminate|]. exact (Na j Hj).
  - intros a K' Q. exfalso. unfold K1 in Q. destruct fire; cbn in Q; [discriminate|]. apply (@lowly_tell c K s (Nxt a) H). rewrite Q. now left.
  - intros j Hj. apply Kx in Hj. destruct Hj as [Hj|Hj]; [discriminate|]. destruct (Na j Hj).
  - pose proof (z_ord H0) as O. destruct O as [O _]. unfold K1. destruct fire; cbn; auto.
  - intros j m Hj. apply Kx in Hj. destruct Hj as [Hj|Hj]; [discriminate|]. rewrite Hin. destruct (j =? i) eqn:Q; [exact Hs|]. apply (z_call H0 j m). now right.
  - intros j Hj. apply (z_ou H0 j). cbn [tl]. unfold K1 in Hj. destruct fire; cbn in Hj; auto. destruct K; cbn in *; auto.
  - intros j Hj. assert (Hj' : In (KAfterNext j) (c :: K) \/ (exists m, In (KCall j m) (c :: K)) \/ co (s_inner s j) = true).
    { destruct Hj as [Hj|[(m & Hj)|Hj]].
      - apply Kx in Hj. destruct Hj as [Hj|Hj]; [discriminate|]. left. now right.
      - apply Kx in Hj. destruct Hj as [Hj|Hj]; [discriminate|]. right. left. exists m. now right.
      - right. right. now apply Co. }
    destruct (z_busy H0 j Hj') as [Q|[Q1 Q2]]; [now left|]. right. split; [exact Q1|]. intros Q. apply Q2. apply Kx in Q. destruct Q as [Q|Q]; [discriminate|]. now right.
  - intros j Hj. apply (z_free H0) in Hj. apply in_or_app. right. apply Nc; auto. intros <-. destruct Hc as [Q|[Q _]]; discriminate.
  - intros Q1 Q2. destruct (z_tear H0 Q1 Q2) as (K' & Q). inversion Q; subst. destruct Hc as [Q3|[Q3 _]]; discriminate.
  - intros Q. apply HD in Q. destruct Q as [Q _]. specialize (Fk Q). unfold K1. destruct fire; cbn [app].
    + cbn [rest endsT ends fin]. split; [split; auto; discriminate|]. intros x K' Z1 Z2. inversion Z1; subst. discriminate.
    + split; [now apply fin_rest|]. intros x K' Z1 Z2. left. eapply fin_top; eauto.
  - intros Q Hq j Hj. apply HD in Q. destruct Q as [Q _]. destruct Hq as [Hq|Hq].
    + apply Co in Hj. destruct Hj as [Hji Hj]. destruct (z_two H0 Q (or_introl Hq) j Hj) as [(j' & Z1)|(Z1 & Z2 & Z3)].
      * exfalso. destruct Z1 as [Z1|Z1]; [|exact (Na _ Z1)]. subst c. destruct Hc as [Z1|[Z1 _]]; discriminate.
      * right. split; [exact Z1|]. split; [exact Z2|]. intros j' Hj'. apply (Z3 j'). now apply Li.
    + exfalso. rewrite (@lowly_top c K s) in Hq; auto; [discriminate|]. intros m Hm. unfold K1 in Hm. destruct fire; [destruct Hm as [Hm|[]]; discriminate|destruct Hm].
  - intros Q j Hj. apply HD in Q. destruct Q as [Q _]. apply Li in Hj. destruct Hj as [Hji Hj].
    destruct (z_in H0 Q j Hj) as [Z1|[Z1|[Z1|[[Z1 _]|Z1]]]].
    + left. apply in_or_app. right. apply Nc; auto. intros <-. destruct Hc as [Z2|[Z2 _]]; discriminate.
    + right. left. exact Z1.
    + do 2 right. left. apply in_or_app. right. apply Nc; auto. intros <-. destruct Hc as [Z2|[Z2 _]]; [discriminate|]. congruence.
    + exfalso. destruct Z1 as [Z1|Z1]; [|exact (Na _ Z1)]. subst c. destruct Hc as [Z1|[Z1 _]]; discriminate.
    + do 4 right. apply in_or_app. right. apply Nc; auto. intros <-. destruct Hc as [Z2|[Z2 _]]; [|discriminate]. congruence.
  - intros Q Ht j Hj. apply HD in Q. destruct Q as [Q _]. apply Li in Hj. destruct Hj as [Hji Hj].
    destruct (z_live H0 Q Ht j Hj) as [Z1|[Z1|[Z1 Z2]]]; [now left| |].
    + exfalso. destruct Z1 as [Z1|Z1]; [|exact (Na _ Z1)]. subst c. destruct Hc as [Z1|[Z1 _]]; discriminate.
    + exfalso. destruct Hc as [Z3|[Z3 _]]; subst c; [discriminate|]. apply Hji. refine (@live_eq _ _ _ _ H H0 Hj _). fold v. eauto.
  - intros Q j Hj. apply Op in Hj. destruct Hj as [Hji Hj]. apply HD' in Q.
    assert (Z1 : before j (c :: K) = true).
    { destruct Q as [Q|Q]; [now apply (z_down H0)|]. destruct (D s) eqn:Qd; [now apply (z_down H0)|].
      destruct (z_err H0 Qd Q) as [Z1 _]. destruct Hc as [Z3|[Z3 _]]; [subst c; discriminate|].
      destruct (ope_split _ Hj) as [Z4|Z4]; [|now apply (co_before j H)]. destruct Hji. refine (@live_eq _ _ _ _ H H0 Z4 _). fold v. eauto. }
    apply before_tl in Z1. destruct Z1 as [Z1|Z1]; [destruct Hc as [Z2|[Z2 _]]; congruence|].
    apply before_app; auto. unfold K1. now destruct fire.
  - intros j K' Q Qd Qo. assert (j = i).
    { unfold K1 in Q. destruct fire; cbn in Q; [congruence|]. exfalso. apply (z_ou H0 j). cbn. rewrite Q. now left. }
    subst j. apply HD in Qd. destruct Qd as [Qd _].
    assert (Qo' : others i s = 0) by (unfold others in *; rewrite Hin, Nat.eqb_refl in Qo; exact Qo). clear Qo.
    apply cnt_none. intros j Hj. destruct (liv (s_inner s' j)) eqn:Hl; auto. exfalso. apply Li in Hl. destruct Hl as [Hji Hl].
    destruct (liv v) eqn:Lv'; [apply Hji; exact (@live_eq _ _ _ _ H H0 Hl Lv')|].
    assert (Cv : co v = true) by (destruct (ope_split _ Hv); congruence).
    destruct (s_torn s) eqn:Ht.
    + destruct (z_two H0 Qd (or_introl (j_torn H Ht)) i Cv) as [(j' & Z1)|(Z1 & Z2 & Z3)].
      * destruct Z1 as [Z1|Z1]; [|exact (Na _ Z1)]. subst c. destruct Hc as [Z1|[Z1 _]]; discriminate.
      * specialize (Z3 j Hl). unfold others in Qo'. destruct (_ <? _); lia.
    + destruct (j_slab H Ht) as [Z1 Z2]. specialize (Z2 i Hs). unfold others in Qo'. apply Nat.ltb_lt in Z2. rewrite Z2 in Qo'.
      apply Hji. apply (@cnt_two (fun x => i_sub (s_inner s x)) (s_arrived s)); auto.
      * unfold liv in Hl. rewrite !andb_true_iff in Hl. tauto.
      * unfold num in Z1. lia.
  - lia.
  - intros Q Qe. apply HD in Q. destruct Q as [_ Q]. change (is_errored (s_up s) = true) in Qe. congruence.
Qed.

(** The state of the destination is closed. *)
Definition ender c : bool := match c with KTell m => is_closing m | KUnsub _ => true | _ => false end.
Lemma ender_in : forall K1 x, forallb ender K1 = true -> ender x = false -> ~ In x K1.
Proof. intros K1 x H Hx Hi. rewrite forallb_forall in H. apply H in Hi. congruence. Qed.
Lemma Z_close : forall c K K1 s s', I1 (c :: K) s -> Z (c :: K) s -> s_inner s' = s_inner s -> s_arrived s' = s_arrived s ->
  s_slab s' = s_slab s -> s_busy s' = s_busy s -> s_torn s' = s_torn s -> shut s' = shut s -> D s' = true ->
  forallb ender K1 = true -> lowly c = true -> endsT c = false -> (forall i, c <> KFree i) ->
  (forall i, ope (s_inner s i) = true -> before i (K1 ++ K) = true) -> Z (K1 ++ K) s'.
Proof.
  intros c K K1 s s' H H0 L1 L2 L3 L4 L5 L6 LD P1 Hl Hc Hf Hb. destruct (I1_top H) as (T1 & T2 & T3).
  assert (Na := alone_noan H0 Hc).
  assert (In_ : forall x, ender x = false -> In x (K1 ++ K) -> In x (c :: K)).
  { intros x Hx Hi. apply in_app_or in Hi. destruct Hi as [Hi|Hi]; [destruct (ender_in _ _ P1 Hx Hi)|now right]. }
  assert (Na1 : noan (K1 ++ K)).
  { intros j Hj. apply in_app_or in Hj. destruct Hj as [Hj|Hj]; [destruct (ender_in K1 (KAfterNext j) P1 eq_refl Hj)|exact (Na j Hj)]. }
  assert (Nl : num liv s' = num liv s) by (unfold num; now rewrite L1, L2).
  assert (Np : pend (K1 ++ K) = []).
  { rewrite pend_app, T2, app_nil_r. clear - P1. induction K1 as [|x K1 IH]; auto. cbn in P1. apply andb_true_iff in P1. destruct P1. rewrite pend_cons, IH by auto. destruct x; try discriminate; auto. }
  assert (Nd : nadv (K1 ++ K) = 0).
  { rewrite nadv_app, T3, Nat.add_0_r. clear - P1. induction K1 as [|x K1 IH]; auto. cbn in P1. apply andb_true_iff in P1. destruct P1. rewrite nadv_cons, IH by auto. destruct x; try discriminate; auto. }
  constructor; rewrite ?L1, ?L3, ?L4, ?L5, ?L6, ?LD, ?Nl, ?Np, ?Nd; cbn [length]; try discriminate.
  - pose proof (z_one H0). lia.
  - left. intros j Hj. apply in_rest in Hj. exact (Na1 j Hj).
  - intros a K' Q. exfalso. destruct K1 as [|x K1]; cbn in Q.
    + apply (@lowly_tell c K s (Nxt a) H). rewrite Q. now left.
    + inversion Q; subst. discriminate.
  - intros j Hj. destruct (Na1 j Hj).
  - pose proof (z_ord H0) as O. destruct O as [O _]. clear - O P1. induction K1 as [|x K1 IH]; cbn in *; auto. apply andb_true_iff in P1. destruct P1 as [P P1].
    split; auto. destruct x; try discriminate; auto.
  - intros i m Hi. apply (z_call H0 i m). apply In_; auto.
  - intros i Hi. apply (z_ou H0 i). cbn [tl]. destruct K1 as [|x K1]; cbn in Hi.
    + destruct K; cbn in *; auto.
    + apply in_app_or in Hi. destruct Hi as [Hi|Hi]; auto. exfalso. apply (@ender_in (x :: K1) (KOnUnsub i) P1 eq_refl). now right.
  - intros i Hi. assert (Hi' : In (KAfterNext i) (c :: K) \/ (exists m, In (KCall i m) (c :: K)) \/ co (s_inner s i) = true).
    { destruct Hi as [Hi|[(m & Hi)|Hi]]; eauto. }
    destruct (z_busy H0 i Hi') as [Q|[Q1 Q2]]; [now left|]. right. split; [exact Q1|]. intros Q. apply Q2. apply In_; auto.
  - intros i Hi. apply (z_free H0) in Hi. destruct Hi as [Hi|Hi]; [destruct (Hf i Hi)|apply in_or_app; auto].
  - intros Q1 Q2. destruct (z_tear H0 Q1 Q2) as (K' & Q). inversion Q; subst. discriminate.
  - auto.
  - intros Q. lia.
Qed.

Lemma liv_parts : forall v, liv v = true -> i_sub v = true /\ i_completed v = false /\ i_closed v = false.
Proof. intros v H. unfold liv in H. rewrite !andb_true_iff, !negb_true_iff in H. tauto. Qed.
Lemma call_live : forall i m K s, I1 (KCall i m :: K) s -> Z (KCall i m :: K) s -> i_closed (s_inner s i) = false -> i_sub (s_inner s i) = true ->
  liv (s_inner s i) = true /\ D s = false.
Proof.
  intros i m K s H H0 Hc Hs. assert (Ho : ope (s_inner s i) = true) by (unfold ope; now rewrite Hs, Hc).
  assert (Nb : before i (KCall i m :: K) = false) by (cbn; now rewrite Nat.eqb_refl). split.
  - destruct (ope_split _ Ho) as [Q|Q]; auto. apply (co_before i H) in Q. congruence.
  - destruct (D s) eqn:Q; auto. apply (z_down H0 Q) in Ho. congruence.
Qed.

(** Telling the destination. *)
Lemma Z_tell : forall m K s s' K1, I1 (KTell m :: K) s -> Z (KTell m :: K) s -> step (KTell m) s = Some (s', K1) -> Z (K1 ++ K) s'.
Proof.
  intros m K s s' K1 H H0 R. destruct (I1_top H) as (T1 & T2 & T3). cbn [HoModel.step] in R. destruct (t_shut (s_told s)) eqn:Es.
  - injection R as <- <-. eapply (@Z_plain _ _ [] _ _ H H0); auto using like_refl; try discriminate.
    + pose proof (z_one H0). cbn. lia.
    + cbn. lia.
  - set (s1 := log (with_told s (tell down m (s_told s))) (TOut m)) in *.
    assert (Es' : s' = s1 /\ K1 = (if shut s1 then [KTear] else [])) by (unfold shut; inversion R; auto). destruct Es' as [-> ->]. clear R.
    assert (Tn : s_torn s1 = false) by (change (s_torn s = false); destruct (s_torn s) eqn:Q; auto; apply (j_torn H) in Q; unfold shut in Q; congruence).
    assert (Kx : forall x, In x ((if shut s1 then [KTear] else []) ++ K) -> x = KTear \/ In x K).
    { intros x Hx. apply in_app_or in Hx. destruct Hx as [Hx|Hx]; auto. destruct (shut s1); [destruct Hx as [<-|[]]; auto|destruct Hx]. }
    assert (Rest : rest ((if shut s1 then [KTear] else []) ++ K) = rest (KTell m :: K)) by (destruct (shut s1); reflexivity).
    assert (Kt : forall x, (forall y, x <> KTell y) -> In x (KTell m :: K) -> In x ((if shut s1 then [KTear] else []) ++ K)).
    { intros x Hx [Q|Q]; [destruct (Hx m); auto|apply in_or_app; auto]. }
    assert (Tc : top_closing ((if shut s1 then [KTear] else []) ++ K) = false).
    { eapply lowly_top; eauto. intros y Hy. destruct (shut s1); [destruct Hy as [Hy|[]]; discriminate|destruct Hy]. }
    assert (Np : pend ((if shut s1 then [KTear] else []) ++ K) = []) by (rewrite pend_app, T2; now destruct (shut s1)).
    assert (Nd : nadv ((if shut s1 then [KTear] else []) ++ K) = 0) by (rewrite nadv_app, T3; now destruct (shut s1)).
    constructor; rewrite ?Rest, ?Tn, ?Tc, ?Np, ?Nd; cbn [length]; try discriminate.
    + pose proof (z_one H0). change (num liv s1) with (num liv s). lia.
    + apply (z_zone H0).
    + intros a K' Q. exfalso. destruct (shut s1); cbn in Q; [discriminate|]. apply (@lowly_tell _ K s (Nxt a) H). rewrite Q. now left.
    + intros j Hj. apply Kx in Hj. destruct Hj as [Hj|Hj]; [discriminate|]. apply (z_an H0). now right.
    + pose proof (z_ord H0) as O. destruct O as [O _]. destruct (shut s1); cbn; auto.
    + intros i y Hj. apply Kx in Hj. destruct Hj as [Hj|Hj]; [discriminate|]. apply (z_call H0 i y). now right.
    + intros i Hi. apply (z_ou H0 i). cbn [tl]. destruct (shut s1); cbn in Hi; auto. destruct K; cbn in *; auto.
    + intros i Hi. assert (Hi' : In (KAfterNext i) (KTell m :: K) \/ (exists y, In (KCall i y) (KTell m :: K)) \/ co (s_inner s i) = true).
      { destruct Hi as [Hi|[(y & Hi)|Hi]]; [| |auto].
        - apply Kx in Hi. destruct Hi as [Hi|Hi]; [discriminate|]. left. now right.
        - apply Kx in Hi. destruct Hi as [Hi|Hi]; [discriminate|]. right. left. exists y. now right. }
      destruct (z_busy H0 i Hi') as [Q|[Q1 Q2]]; [now left|]. right. split; [exact Q1|]. intros Q. apply Q2. apply Kx in Q. destruct Q as [Q|Q]; [discriminate|]. now right.
    + intros i Hi. apply (z_free H0) in Hi. apply Kt; auto. discriminate.
    + intros Q _. rewrite Q. cbn. eauto.
    + intros Q. destruct (z_fin H0 Q) as [F1 F2]. split; [exact F1|]. intros x K' _ _. apply (F2 _ _ eq_refl eq_refl).
    + intros Q [Hq|Hq]; [|discriminate]. intros i Hi. left.
      destruct (is_closing m) eqn:Em.
      * destruct (z_two H0 Q (or_intror Em) i Hi) as [(j & Z1)|[Z1 _]]; [|unfold s1 in Tn; cbn in Tn; congruence]. exists j. apply Kt; auto. discriminate.
      * destruct m; try discriminate. destruct (z_next H0 eq_refl) as (j & K2 & ->). exists j. apply in_or_app. right. now left.
    + intros Q j Hj. destruct (z_in H0 Q j Hj) as [Z1|[Z1|[Z1|[[Z1 Z2]|Z1]]]].
      * left. apply Kt; auto. discriminate.
      * right. left. exact Z1.
      * do 2 right. left. apply Kt; auto. discriminate.
      * unfold shut in Z2. congruence.
      * do 4 right. apply Kt; auto. discriminate.
    + intros Q i Hi. assert (Z1 := z_down H0 Q i Hi). cbn in Z1. apply before_app; auto. now destruct (shut s1).
    + intros i K' Q. exfalso. destruct (shut s1); cbn in Q; [discriminate|]. apply (z_ou H0 i). cbn. rewrite Q. now left.
    + lia.
    + intros Q Qe. destruct (z_err H0 Q Qe) as [Z1 Z2]. split; auto. discriminate.
Qed.

Lemma pend_from : forall l : list nat, pend (map (@KUnsubFrom A E) l) = [].
Proof. induction l as [|i l IH]; cbn [map]; [reflexivity|]. now rewrite pend_cons. Qed.
Lemma nadv_from : forall l : list nat, nadv (map (@KUnsubFrom A E) l) = 0.
Proof. induction l as [|i l IH]; cbn [map]; [reflexivity|]. now rewrite nadv_cons. Qed.

Lemma ord_from : forall (l : list nat) K, ord K -> ord (map (@KUnsubFrom A E) l ++ KTearEnd :: K).
Proof. induction l as [|i l IH]; cbn; auto. Qed.

(** Tearing down. *)
Lemma Z_tear : forall K s, I1 (KTear :: K) s -> Z (KTear :: K) s -> s_torn s = false ->
  Z ((map (@KUnsubFrom A E) (concat (s_slab s)) ++ [KTearEnd]) ++ K) (with_slab (with_torn s true) []).
Proof.
  intros K s H H0 Tn. destruct (I1_top H) as (T1 & T2 & T3). set (K1 := map _ _ ++ [KTearEnd]). set (s1 := with_slab _ _).
  assert (Hs : shut s = true) by (destruct (j_end H KTear (or_introl eq_refl) eq_refl); auto; discriminate).
  assert (K1x : forall x, In x K1 -> x = KTearEnd \/ exists i, In i (concat (s_slab s)) /\ x = KUnsubFrom i).
  { intros x Hx. apply in_app_or in Hx. destruct Hx as [Hx|[<-|[]]]; auto. right. apply in_map_iff in Hx. destruct Hx as (i & <- & Hi). eauto. }
  assert (K1e : forallb endsT K1 = true).
  { apply forallb_forall. intros x Hx. apply K1x in Hx. destruct Hx as [-> |(i & _ & ->)]; reflexivity. }
  assert (Rest : rest (K1 ++ K) = rest (KTear :: K)) by (rewrite rest_app by auto; reflexivity).
  assert (Kx : forall x, ends x = false -> In x (K1 ++ K) -> In x (KTear :: K)).
  { intros x Hx Hi. apply in_app_or in Hi. destruct Hi as [Hi|Hi]; [|now right]. apply K1x in Hi. destruct Hi as [-> |(i & _ & ->)]; discriminate. }
  assert (Kt : forall x, x <> KTear -> In x (KTear :: K) -> In x (K1 ++ K)) by (intros x Hx [Q|Q]; [congruence|apply in_or_app; auto]).
  assert (Np : pend (K1 ++ K) = []).
  { rewrite pend_app, T2, app_nil_r. unfold K1. rewrite pend_app, pend_from. reflexivity. }
  assert (Nd : nadv (K1 ++ K) = 0).
  { rewrite nadv_app, T3. unfold K1. rewrite nadv_app, nadv_from. reflexivity. }
  assert (Hne : forall c K', K1 ++ K = c :: K' -> endsT c = true).
  { intros c K' Q. rewrite forallb_forall in K1e. apply K1e. unfold K1 in *. destruct (map _ _); cbn in Q; inversion Q; now left. }
  constructor; rewrite ?Rest, ?Np, ?Nd; cbn [length].
  - pose proof (z_one H0). change (num liv s1) with (num liv s). lia.
  - apply (z_zone H0).
  - intros a K' Q. exfalso. unfold K1 in Q. destruct (concat _); cbn in Q; discriminate.
  - intros j Hj. apply Kx in Hj; auto. apply (z_an H0 j Hj).
  - pose proof (z_ord H0) as O. destruct O as [O _]. unfold K1. rewrite <- app_assoc. cbn [app]. now apply ord_from.
  - intros i y Hj. apply Kx in Hj; auto. apply (z_call H0 i y Hj).
  - intros i Hi. apply (z_ou H0 i). cbn [tl]. assert (Q : In (KOnUnsub i) (K1 ++ K)) by (destruct (K1 ++ K); cbn in *; auto).
    apply Kx in Q; auto. destruct Q; [discriminate|auto].
  - intros i Hi. assert (Hi' : In (KAfterNext i) (KTear :: K) \/ (exists y, In (KCall i y) (KTear :: K)) \/ co (s_inner s i) = true).
    { destruct Hi as [Hi|[(y & Hi)|Hi]]; [| |auto].
      - left. apply Kx; auto.
      - right. left. exists y. apply Kx; auto. }
    destruct (z_busy H0 i Hi') as [Q|[Q1 Q2]]; [now left|]. right. split; [cbn; auto|]. intros Q. apply in_app_or in Q. destruct Q as [Q|Q].
    + apply K1x in Q. destruct Q as [Q|(j & Q & Z1)]; [discriminate|]. inversion Z1; subst. auto.
    + apply Q2. now right.
  - intros i Hi. apply (z_free H0) in Hi. apply Kt; auto. discriminate.
  - intros _ Q. discriminate.
  - intros Q. destruct (z_fin H0 Q) as [F1 F2]. split; [exact F1|]. intros x K' _ _. apply (F2 _ _ eq_refl eq_refl).
  - intros Q _ i Hi. left. destruct (z_two H0 Q (or_introl Hs) i Hi) as [(j & Z1)|[Z1 _]]; [|congruence]. exists j. apply Kt; auto. discriminate.
  - intros Q j Hj. destruct (z_in H0 Q j Hj) as [Z1|[Z1|[Z1|[[Z1 Z2]|Z1]]]].
    + left. apply Kt; auto. discriminate.
    + do 2 right. left. apply in_or_app. left. unfold K1. apply in_or_app. left. now apply in_map.
    + do 2 right. left. apply Kt; auto. discriminate.
    + do 3 right. left. split; auto. apply Kt; auto. discriminate.
    + do 4 right. apply Kt; auto. discriminate.
  - intros Q _ j Hj. right. destruct (z_fin H0 Q) as [F1 F2]. destruct (F2 _ _ eq_refl eq_refl) as [F|[(i & K2 & F)|F]].
    + right. split; auto. assert (Re : forall x, endsT x = false -> ~ In x (KTear :: K)).
      { intros x Hx Hi. apply (@rest_in x _ Hx) in Hi. rewrite F in Hi. destruct Hi. }
      destruct (z_in H0 Q j Hj) as [Z1|[Z1|[Z1|[[Z1 Z2]|Z1]]]]; try (exfalso; eapply Re; [|exact Z1]; reflexivity).
      * apply in_or_app. left. unfold K1. apply in_or_app. left. now apply in_map.
      * apply Kt; auto. discriminate.
    + left. assert (Hi : In (KAfterNext i) (KTear :: K)) by (apply in_rest; rewrite F; now left).
      assert (i = j) by exact (@live_eq _ _ _ _ H H0 (z_an H0 i Hi) Hj). subst i. apply Kt; auto. discriminate.
    + exfalso. apply liv_ope in Hj. change (ope (s_inner s j) = true) in Hj. now rewrite F in Hj.
  - intros Q i Hi. assert (Z1 := z_down H0 Q i Hi). cbn in Z1. apply before_app; auto. apply forallb_forall. intros x Hx. apply K1x in Hx. destruct Hx as [-> |(j & _ & ->)]; reflexivity.
  - intros i K' Q. apply Hne in Q. discriminate.
  - lia.
  - intros Q Qe. destruct (z_err H0 Q Qe) as [Z1 Z2]. auto.
Qed.

(** Subscribing to an inner observable. *)
Lemma nadv_calls : forall i (l : list (ncall A E)) K, nadv (map (KCall i) l ++ KSubscribed i :: K) = nadv K.
Proof. intros i l K. induction l as [|x l IH]; cbn [map app]; now rewrite nadv_cons. Qed.
Lemma pend_calls : forall i (l : list (ncall A E)) K, pend (map (KCall i) l ++ KSubscribed i :: K) = pend K.
Proof. intros i l K. induction l as [|x l IH]; cbn [map app]; now rewrite pend_cons. Qed.
Lemma ord_calls : forall i (l : list (ncall A E)) K, ord K -> (forall m, ~ In (KCall i m) K) -> ~ In (KUnsub i) K -> ord (map (KCall i) l ++ KSubscribed i :: K).
Proof. intros i l K H1 H2 H3. induction l as [|x l IH]; cbn; auto. Qed.
Lemma Z_create : forall i l K s s' K1, I1 (KCreate i l :: K) s -> Z (KCreate i l :: K) s -> step (KCreate i l) s = Some (s', K1) -> Z (K1 ++ K) s'.
Proof.
  intros i l K s s' K1 H H0 R. cbn [HoModel.step] in R. destruct (I1_top H) as (T1 & T2 & T3).
  injection R as <- <-. set (v := mkInner true false false (length (s_slab s)) true true). set (s' := log _ _). rewrite <- app_assoc. cbn [app].
  destruct (j_wait H i (or_introl eq_refl)) as [Hlt Hno]. assert (Na := alone_noan H0 eq_refl).
  assert (Hin : forall j, s_inner s' j = if j =? i then v else s_inner s j) by reflexivity.
  pose proof (z_one H0) as One. rewrite nadv_cons, pend_cons, T2, T3 in One. cbn [is_adv pend1 app length] in One.
  assert (N0 : num liv s = 0) by lia. assert (HD : D s = false) by (apply (z_adv H0); rewrite pend_cons; cbn; lia).
  assert (Hl : num liv s' = 1).
  { pose proof (@cnt_inner liv (s_arrived s) (s_inner s) i v Hlt) as Q. rewrite Hno in Q. cbn in Q. change (num liv s' + 0 = num liv s + 1) in Q. lia. }
  assert (Co : forall j, co (s_inner s' j) = true -> co (s_inner s j) = true).
  { intros j. rewrite Hin. destruct (j =? i); [discriminate|auto]. }
  assert (Nu : forall x, okf s x -> In x K -> okf s x) by auto.
  assert (HK : Forall (okf s) K) by (pose proof (j_fr H) as F; now inversion F).
  rewrite Forall_forall in HK.
  assert (K1 : ~ In (KUnsub i) K) by (intros Q; apply HK in Q; cbn in Q; rewrite Hno in Q; discriminate).
  assert (K2 : ~ In (KUnsubFrom i) K) by (intros Q; apply HK in Q; cbn in Q; rewrite Hno in Q; discriminate).
  assert (K3 : forall m, ~ In (KCall i m) K) by (intros m Q; pose proof (z_call H0 i m (or_intror Q)) as Z1; rewrite Hno in Z1; discriminate).
  assert (K4 : ~ In i (concat (s_slab s))).
  { intros Q. apply in_concat in Q. destruct Q as (l' & Q1 & Q2). pose proof (j_slabids H l' i Q1 Q2) as Z1. rewrite Hno in Z1. discriminate. }
  assert (Sl : concat (s_slab s') = concat (s_slab s)) by (change (s_slab s') with (s_slab s ++ [[]]); rewrite concat_app; apply app_nil_r).
  assert (Sn : length (s_slab s') = S (length (s_slab s))) by (change (s_slab s') with (s_slab s ++ [[]]); rewrite app_length; cbn; lia).
  assert (Kx : forall x, In x (map (KCall i) l ++ KSubscribed i :: K) -> (exists m, x = KCall i m) \/ x = KSubscribed i \/ In x K).
  { intros x Hx. apply in_app_or in Hx. destruct Hx as [Hx|[<-|Hx]]; auto. apply in_map_iff in Hx. destruct Hx as (m & <- & _). eauto. }
  assert (Kt : forall x, In x K -> In x (map (KCall i) l ++ KSubscribed i :: K)) by (intros x Hx; apply in_or_app; right; now right).
  assert (Tc : top_closing (map (KCall i) l ++ KSubscribed i :: K) = false) by (destruct l; reflexivity).
  assert (Re : rest (map (KCall i) l ++ KSubscribed i :: K) = map (KCall i) l ++ KSubscribed i :: K) by (destruct l; reflexivity).
  constructor; rewrite ?nadv_calls, ?pend_calls, ?T2, ?T3, ?Hl, ?Sl, ?Sn, ?Tc, ?Re; cbn [length]; auto; try lia.
  - left. intros j Hj. apply Kx in Hj. destruct Hj as [(m & Hj)|[Hj|Hj]]; try discriminate. exact (Na j Hj).
  - intros a K' Q. destruct l; discriminate.
  - intros j Hj. apply Kx in Hj. destruct Hj as [(m & Hj)|[Hj|Hj]]; try discriminate. destruct (Na j Hj).
  - apply ord_calls; auto. apply (z_ord H0).
  - intros j m Hj. rewrite Hin. destruct (j =? i) eqn:Q; auto. apply Kx in Hj. destruct Hj as [(m' & Hj)|[Hj|Hj]]; [|discriminate|].
    + inversion Hj; subst. rewrite Nat.eqb_refl in Q. discriminate.
    + apply (z_call H0 j m). now right.
  - intros j Hj. assert (Q : In (KOnUnsub j) (map (KCall i) l ++ KSubscribed i :: K)) by (destruct l; cbn in *; auto).
    apply Kx in Q. destruct Q as [(m & Q)|[Q|Q]]; try discriminate. exact (z_ou H0 j Q).
  - intros j Hj. destruct (Nat.eq_dec j i) as [->|Hji].
    + right. split; auto. intros Q. apply Kx in Q. destruct Q as [(m & Q)|[Q|Q]]; try discriminate. auto.
    + assert (Hj' : In (KAfterNext j) (KCreate i l :: K) \/ (exists m, In (KCall j m) (KCreate i l :: K)) \/ co (s_inner s j) = true).
      { destruct Hj as [Hj|[(m & Hj)|Hj]]; [| |auto].
        - apply Kx in Hj. destruct Hj as [(m & Hj)|[Hj|Hj]]; try discriminate. left. now right.
        - apply Kx in Hj. destruct Hj as [(m' & Hj)|[Hj|Hj]]; [congruence|discriminate|]. right. left. exists m. now right. }
      destruct (z_busy H0 j Hj') as [Q|[Q1 Q2]]; [now left|]. right. split; [exact Q1|]. intros Q. apply Kx in Q. destruct Q as [(m & Q)|[Q|Q]]; try discriminate. apply Q2. now right.
  - intros j Hj. apply (z_free H0) in Hj. destruct Hj as [Hj|Hj]; [discriminate|auto].
  - intros Q1 Q2. destruct (z_tear H0 Q1 Q2) as (K' & Q). discriminate.
  - intros _. destruct (z_fin H0 HD) as [F1 F2]. cbn [rest endsT ends fin] in F1. split.
    + change (fin (map (KCall i) l ++ [KSubscribed i] ++ K)). rewrite app_assoc. apply fin_app; [|apply F1].
      rewrite forallb_app. cbn. rewrite andb_true_r. apply forallb_forall. intros x Hx. apply in_map_iff in Hx. destruct Hx as (m & <- & _). reflexivity.
    + intros x K' Q Hx. destruct l; inversion Q; subst; discriminate.
  - intros _ [Hq|Hq]; [|discriminate]. intros j Hj. apply Co in Hj. right. destruct (z_two H0 HD (or_introl Hq) j Hj) as [(j' & Q)|(Q1 & Q2 & _)].
    + exfalso. destruct Q as [Q|Q]; [discriminate|exact (Na j' Q)].
    + split; auto. split; [lia|]. intros _ _. lia.
  - intros _ j. rewrite Hin. destruct (j =? i) eqn:Q.
    + apply Nat.eqb_eq in Q. subst j. intros _. left. apply in_or_app. right. now left.
    + intros Hj. rewrite (no_live j H N0) in Hj. discriminate.
  - intros Q. change (D s = true) in Q. congruence.
  - intros j K' Q. destruct l; discriminate.
  - intros _ Qe. exfalso. destruct (z_err H0 HD Qe) as [Q _]. discriminate.
Qed.

(** A value. *)
Lemma Z_next : forall i a K s, I1 (KCall i (Nxt a) :: K) s -> Z (KCall i (Nxt a) :: K) s -> i_closed (s_inner s i) = false -> i_sub (s_inner s i) = true ->
  Z (KTell (Nxt a) :: KAfterNext i :: K) (log s (TIn i (Nxt a))).
Proof.
  intros i a K s H H0 Hc Hs. destruct (call_live H H0 Hc Hs) as [Hl HD]. destruct (I1_top H) as (T1 & T2 & T3). set (s' := log _ _).
  assert (Na := alone_noan H0 eq_refl).
  assert (Kx : forall x, In x (KTell (Nxt a) :: KAfterNext i :: K) -> x = KTell (Nxt a) \/ x = KAfterNext i \/ In x K) by (cbn; intuition).
  assert (Kt : forall x, In x K -> In x (KTell (Nxt a) :: KAfterNext i :: K)) by (cbn; auto).
  assert (Re : rest (KTell (Nxt a) :: KAfterNext i :: K) = KAfterNext i :: K) by reflexivity.
  constructor; rewrite ?nadv_cons, ?pend_cons, ?T2, ?T3, ?Re; cbn [length is_adv pend1 app Nat.add]; try lia.
  - pose proof (z_one H0). change (num liv s') with (num liv s). lia.
  - right. eauto.
  - intros a' K' Q. inversion Q; subst. eauto.
  - intros j Hj. apply Kx in Hj. destruct Hj as [Hj|[Hj|Hj]]; [discriminate|inversion Hj; subst; exact Hl|destruct (Na j Hj)].
  - pose proof (z_ord H0) as O. destruct O as [O _]. cbn. auto.
  - intros j m Hj. apply Kx in Hj. destruct Hj as [Hj|[Hj|Hj]]; try discriminate. apply (z_call H0 j m). now right.
  - intros j Hj. cbn in Hj. destruct Hj as [Hj|Hj]; [discriminate|]. exact (z_ou H0 j Hj).
  - intros j Hj. assert (Hj' : In (KAfterNext j) (KCall i (Nxt a) :: K) \/ (exists m, In (KCall j m) (KCall i (Nxt a) :: K)) \/ co (s_inner s j) = true).
    { destruct Hj as [Hj|[(m & Hj)|Hj]]; [| |auto].
      - apply Kx in Hj. destruct Hj as [Hj|[Hj|Hj]]; [discriminate| |].
        + inversion Hj; subst. right. left. exists (Nxt a). now left.
        + left. now right.
      - apply Kx in Hj. destruct Hj as [Hj|[Hj|Hj]]; try discriminate. right. left. exists m. now right. }
    destruct (z_busy H0 j Hj') as [Q|[Q1 Q2]]; [now left|]. right. split; [exact Q1|]. intros Q. apply Kx in Q. destruct Q as [Q|[Q|Q]]; try discriminate. apply Q2. now right.
  - intros j Hj. apply (z_free H0) in Hj. destruct Hj as [Hj|Hj]; [discriminate|auto].
  - intros Q1 Q2. destruct (z_tear H0 Q1 Q2) as (K' & Q). discriminate.
  - intros _. destruct (z_fin H0 HD) as [F1 F2]. cbn [rest endsT ends fin] in F1. split.
    + cbn [fin endsT ends]. split; [discriminate|apply F1].
    + intros x K' Q Hx. right. left. eauto.
  - intros _ _ j Hj. left. exists i. right. now left.
  - intros _ j Hj. destruct (z_in H0 HD j Hj) as [Z1|[Z1|[Z1|[[Z1 Z2]|Z1]]]].
    + left. destruct Z1 as [Z1|Z1]; [discriminate|auto].
    + right. left. exact Z1.
    + do 2 right. left. destruct Z1 as [Z1|Z1]; [discriminate|auto].
    + exfalso. destruct Z1 as [Z1|Z1]; [discriminate|exact (Na j Z1)].
    + do 4 right. destruct Z1 as [Z1|Z1]; [discriminate|auto].
  - intros _ Ht j Hj. destruct (z_live H0 HD Ht j Hj) as [Z1|[Z1|[Z1 Z2]]]; [left; exact Z1| |discriminate].
    exfalso. destruct Z1 as [Z1|Z1]; [discriminate|exact (Na j Z1)].
  - intros Q. change (D s = true) in Q. congruence.
  - intros j K' Q. discriminate.
  - intros _ Qe. exfalso. destruct (z_err H0 HD Qe) as [Q _]. discriminate.
Qed.

(** A completion. *)
Lemma Z_complete : forall i K s, I1 (KCall i Cmp :: K) s -> Z (KCall i Cmp :: K) s -> i_closed (s_inner s i) = false -> i_sub (s_inner s i) = true ->
  Z (((if i_oc (s_inner s i) then [KAdvance] else []) ++ [KInnerCompleted i; KUnsub i]) ++ K)
    (with_inner (log s (TIn i Cmp)) i (set_completed (s_inner s i))).
Proof.
  intros i K s H H0 Hc Hs. destruct (call_live H H0 Hc Hs) as [Hl HD]. destruct (I1_top H) as (T1 & T2 & T3).
  rewrite (j_oc H i Hs). destruct (liv_parts _ Hl) as (_ & Hcm & _). rewrite Hcm. cbn [negb app]. set (v := s_inner s i) in *. set (s' := with_inner _ _ _).
  set (K' := KAdvance :: KInnerCompleted i :: KUnsub i :: K).
  assert (Hin : forall j, s_inner s' j = if j =? i then set_completed v else s_inner s j) by reflexivity.
  assert (Na := alone_noan H0 eq_refl). pose proof (z_one H0) as One.
  assert (N0 : num liv s' = 0).
  { pose proof (@cnt_inner liv (s_arrived s) (s_inner s) i (set_completed v) (live_lt i H (liv_ope _ Hl))) as Q. fold v in Q. rewrite Hl in Q.
    replace (liv (set_completed v)) with false in Q by (unfold liv; cbn; now rewrite andb_false_r). change (num liv s' + 1 = num liv s + 0) in Q. lia. }
  assert (Nl : forall j, liv (s_inner s' j) = false).
  { intros j. rewrite Hin. destruct (j =? i) eqn:Q; [unfold liv; cbn; now rewrite andb_false_r|]. destruct (liv (s_inner s j)) eqn:Q2; auto.
    apply Nat.eqb_neq in Q. destruct Q. exact (@live_eq _ _ _ _ H H0 Q2 Hl). }
  assert (Kx : forall x, In x K' -> x = KAdvance \/ x = KInnerCompleted i \/ x = KUnsub i \/ In x K) by (unfold K'; cbn; intuition).
  assert (Kt : forall x, In x K -> In x K') by (unfold K'; cbn; auto).
  constructor; unfold K'; rewrite ?nadv_cons, ?pend_cons, ?T2, ?T3, ?N0; cbn [length is_adv pend1 app Nat.add top_closing]; fold K'; auto; try lia.
  - left. intros j Hj. apply in_rest in Hj. apply Kx in Hj. destruct Hj as [Hj|[Hj|[Hj|Hj]]]; try discriminate. exact (Na j Hj).
  - intros a' K2 Q. discriminate.
  - intros j Hj. apply Kx in Hj. destruct Hj as [Hj|[Hj|[Hj|Hj]]]; try discriminate. destruct (Na j Hj).
  - pose proof (z_ord H0) as O. destruct O as [O _]. cbn. auto.
  - intros j m Hj. apply Kx in Hj. destruct Hj as [Hj|[Hj|[Hj|Hj]]]; try discriminate. rewrite Hin. destruct (j =? i); [exact Hs|]. apply (z_call H0 j m). now right.
  - intros j Hj. cbn in Hj. destruct Hj as [Hj|[Hj|Hj]]; try discriminate. exact (z_ou H0 j Hj).
  - intros j Hj. assert (Hj' : In (KAfterNext j) (KCall i Cmp :: K) \/ (exists m, In (KCall j m) (KCall i Cmp :: K)) \/ co (s_inner s j) = true).
    { destruct Hj as [Hj|[(m & Hj)|Hj]].
      - apply Kx in Hj. destruct Hj as [Hj|[Hj|[Hj|Hj]]]; try discriminate. left. now right.
      - apply Kx in Hj. destruct Hj as [Hj|[Hj|[Hj|Hj]]]; try discriminate. right. left. exists m. now right.
      - rewrite Hin in Hj. destruct (j =? i) eqn:Q; [|auto]. apply Nat.eqb_eq in Q. subst j. right. left. exists Cmp. now left. }
    destruct (z_busy H0 j Hj') as [Q|[Q1 Q2]]; [now left|]. right. split; [exact Q1|]. intros Q. apply Kx in Q. destruct Q as [Q|[Q|[Q|Q]]]; try discriminate. apply Q2. now right.
  - intros j Hj. apply (z_free H0) in Hj. destruct Hj as [Hj|Hj]; [discriminate|auto].
  - intros Q1 Q2. destruct (z_tear H0 Q1 Q2) as (K2 & Q). discriminate.
  - intros _. destruct (z_fin H0 HD) as [F1 F2]. cbn [rest endsT ends fin] in F1. split.
    + unfold K'. cbn [rest fin endsT ends]. repeat (split; [discriminate|]). apply F1.
    + intros x K2 Q Hx. inversion Q; subst. discriminate.
  - intros _ [Hq|Hq]; [|discriminate]. intros j Hj. right.
    assert (Ht : s_torn s = true) by (destruct (s_torn s) eqn:Q; auto; destruct (z_tear H0 Hq Q) as (K2 & Q2); discriminate).
    split; [exact Ht|]. split.
    + destruct (z_live H0 HD Ht i Hl) as [Z1|[Z1|[Z1 Z2]]]; [exact Z1| |discriminate]. exfalso. destruct Z1 as [Z1|Z1]; [discriminate|exact (Na i Z1)].
    + intros j' Q. rewrite Nl in Q. discriminate.
  - intros _ j Q. rewrite Nl in Q. discriminate.
  - intros _ _ j Q. rewrite Nl in Q. discriminate.
  - intros Q. change (D s = true) in Q. congruence.
  - intros _ Qe. exfalso. destruct (z_err H0 HD Qe) as [Q _]. discriminate.
Qed.

(** The inner subscription is put into its place. *)
Lemma in_concat_replace : forall (l : list (list nat)) n y i j, nth_error l n = Some y ->
  In j (concat (firstn n l ++ (y ++ [i]) :: skipn (S n) l)) <-> In j (concat l) \/ j = i.
Proof.
  induction l as [|x l IH]; intros [|n] y i j H; try discriminate.
  - injection H as <-. cbn. rewrite !in_app_iff. cbn. intuition.
  - cbn in H. cbn [firstn app concat skipn] in *. rewrite !in_app_iff. specialize (IH n y i j H). rewrite IH. tauto.
Qed.
Lemma Z_subscribed : forall i l K s, I1 (KSubscribed i :: K) s -> Z (KSubscribed i :: K) s -> i_closed (s_inner s i) = false ->
  nth_error (s_slab s) (i_key (s_inner s i)) = Some l ->
  Z K (with_slab s (firstn (i_key (s_inner s i)) (s_slab s) ++ (l ++ [i]) :: skipn (S (i_key (s_inner s i))) (s_slab s))).
Proof.
  intros i l K s H H0 Hc Hn. destruct (I1_top H) as (T1 & T2 & T3). set (sl := firstn _ _ ++ _).
  assert (Na := alone_noan H0 eq_refl). pose proof (z_ord H0) as O. destruct O as [O [O1 O2]].
  assert (Hsub : i_sub (s_inner s i) = true) by (pose proof (j_fr H) as F; apply Forall_inv in F; exact F).
  assert (Sn : length sl = length (s_slab s)).
  { unfold sl. rewrite app_length. cbn [length]. rewrite firstn_length, skipn_length. assert (i_key (s_inner s i) < length (s_slab s)) by (apply nth_error_Some; congruence). lia. }
  assert (Sc : forall j, In j (concat sl) <-> In j (concat (s_slab s)) \/ j = i) by (intros j; unfold sl; now apply in_concat_replace).
  assert (Nc : co (s_inner s i) = false).
  { destruct (co (s_inner s i)) eqn:Q; auto. apply (co_before i H) in Q. cbn in Q. apply before_in in Q. contradiction. }
  assert (Tc : top_closing K = false) by (apply (@lowly_top _ K s [] H); auto).
  constructor; cbn [with_slab s_slab s_inner s_busy s_torn s_up]; rewrite ?T2, ?T3, ?Sn, ?Tc; cbn [length]; auto; try lia.
  - pose proof (z_one H0). change (num liv (with_slab s sl)) with (num liv s). lia.
  - left. intros j Hj. apply in_rest in Hj. exact (Na j Hj).
  - intros a K' ->. exfalso. apply (@lowly_tell _ _ s (Nxt a) H). now left.
  - intros j Hj. destruct (Na j Hj).
  - intros j m Hj. apply (z_call H0 j m). now right.
  - intros j Hj. apply (z_ou H0 j). cbn. destruct K; cbn in *; auto.
  - intros j Hj. assert (j <> i).
    { intros ->. destruct Hj as [Hj|[(m & Hj)|Hj]]; [exact (Na i Hj)|exact (O1 m Hj)|congruence]. }
    assert (Hj' : In (KAfterNext j) (KSubscribed i :: K) \/ (exists m, In (KCall j m) (KSubscribed i :: K)) \/ co (s_inner s j) = true).
    { destruct Hj as [Hj|[(m & Hj)|Hj]]; auto; [left; now right|right; left; exists m; now right]. }
    destruct (z_busy H0 j Hj') as [Q|[Q1 Q2]]; [now left|]. right. rewrite Sc. split; [intuition|]. intros Q. apply Q2. now right.
  - intros j Hj. apply (z_free H0) in Hj. destruct Hj as [Hj|Hj]; [discriminate|auto].
  - intros Q1 Q2. destruct (z_tear H0 Q1 Q2) as (K2 & Q). discriminate.
  - intros HD. destruct (z_fin H0 HD) as [F1 F2]. cbn [rest endsT ends fin] in F1. destruct F1 as [_ F1].
    split; [now apply fin_rest|]. intros x K' Q Hx. left. eapply fin_top; eauto.
  - intros HD [Hq|Hq]; [|discriminate]. intros j Hj. destruct (z_two H0 HD (or_introl Hq) j Hj) as [(j' & Q)|Q]; [|right; exact Q].
    exfalso. destruct Q as [Q|Q]; [discriminate|exact (Na j' Q)].
  - intros HD j Hj. rewrite Sc. destruct (z_in H0 HD j Hj) as [Z1|[Z1|[Z1|[[Z1 Z2]|Z1]]]].
    + destruct Z1 as [Z1|Z1]; [inversion Z1; subst; auto|auto].
    + auto.
    + destruct Z1 as [Z1|Z1]; [discriminate|auto].
    + exfalso. destruct Z1 as [Z1|Z1]; [discriminate|exact (Na j Z1)].
    + destruct Z1 as [Z1|Z1]; [discriminate|auto].
  - intros HD Ht j Hj. destruct (z_live H0 HD Ht j Hj) as [Z1|[Z1|[Z1 Z2]]]; [left; exact Z1| |discriminate].
    exfalso. destruct Z1 as [Z1|Z1]; [discriminate|exact (Na j Z1)].
  - intros Q j Hj. exact (z_down H0 Q j Hj).
  - intros j K' ->. exfalso. apply (z_ou H0 j). now left.
  - intros HD Qe. exfalso. destruct (z_err H0 HD Qe) as [Q _]. discriminate.
Qed.

(** The call of an inner observable has returned. *)
Lemma Z_free : forall i K s, I1 (KFree i :: K) s -> Z (KFree i :: K) s -> Z K (with_busy s (filter (fun j => negb (j =? i)) (s_busy s))).
Proof.
  intros i K s H H0. pose proof (z_ord H0) as [_ ->].
  constructor; cbn [with_busy s_slab s_inner s_busy s_torn s_up length rest fin In tl ord]; try contradiction; auto; try discriminate.
  - pose proof (z_one H0) as Q. exact Q.
  - left. intros j [].
  - intros j [[]|[(m & [])|Hj]]. apply (co_before j H) in Hj. discriminate.
  - intros j Hj. apply filter_In in Hj. destruct Hj as [Hj Q]. apply (z_free H0) in Hj. destruct Hj as [Hj|[]]. inversion Hj; subst. rewrite Nat.eqb_refl in Q. discriminate.
  - intros Q1 Q2. destruct (z_tear H0 Q1 Q2) as (K2 & Q). discriminate.
  - intros _ _ j Hj. apply (co_before j H) in Hj. discriminate.
  - intros HD j Hj. destruct (z_in H0 HD j Hj) as [[Z1|[]]|[Z1|[[Z1|[]]|[[[Z1|[]] Z2]|[Z1|[]]]]]]; try discriminate. auto.
  - intros HD Ht j Hj. destruct (z_live H0 HD Ht j Hj) as [Z1|[[Z1|[]]|[Z1 Z2]]]; try discriminate. auto.
  - intros HD j Hj. pose proof (z_down H0 HD j Hj) as Q. discriminate.
  - cbn. lia.
  - intros HD Qe. exfalso. destruct (z_err H0 HD Qe) as [Q _]. discriminate.
Qed.

(** The last one has been unsubscribed. *)
Lemma Z_last : forall K s, I1 (KOnUnsub2 :: K) s -> Z (KOnUnsub2 :: K) s -> can_downstream_unsubscribe s = true -> is_errored (s_up s) = false ->
  Z (KTell Uns :: KTear :: K) s.
Proof.
  intros K s H H0 Hu Hd. destruct (I1_top H) as (T1 & T2 & T3). assert (Na := alone_noan H0 eq_refl).
  assert (No : D s = false -> forall i, ope (s_inner s i) = false).
  { intros HD i. unfold can_downstream_unsubscribe in Hu. unfold D in HD. rewrite Hd, HD, !orb_false_r in Hu.
    rewrite !andb_true_iff in Hu. destruct Hu as [[[_ Hu] _] _]. apply Nat.eqb_eq in Hu. pose proof (j_nu H) as Q. rewrite pend_cons, T2 in Q. cbn in Q.
    destruct (ope (s_inner s i)) eqn:Z1; auto. assert (0 < num ope s) by (apply (@num_pos A E ope i); auto; eapply live_lt; eauto). lia. }
  assert (Nl : D s = false -> forall i, liv (s_inner s i) = true -> False) by (intros HD i Q; apply liv_ope in Q; rewrite No in Q; auto; discriminate).
  assert (Nc : D s = false -> forall i, co (s_inner s i) = true -> False) by (intros HD i Q; apply co_ope in Q; rewrite No in Q; auto; discriminate).
  assert (Kt : forall x, In x K -> In x (KTell Uns :: KTear :: K)) by (cbn; auto).
  assert (Kx : forall x, endsT x = false -> In x (KTell Uns :: KTear :: K) -> In x (KOnUnsub2 :: K)) by (intros x Hx [<-|[<-|Q]]; [discriminate|discriminate|now right]).
  constructor; rewrite ?nadv_cons, ?pend_cons, ?T2, ?T3; cbn [length is_adv pend1 app Nat.add]; try lia.
  - pose proof (z_one H0). lia.
  - left. intros j Hj. apply in_rest in Hj. apply Kx in Hj; auto. destruct Hj as [Hj|Hj]; [discriminate|exact (Na j Hj)].
  - intros a K' Q. discriminate.
  - intros j Hj. apply Kx in Hj; auto. exact (z_an H0 j Hj).
  - pose proof (z_ord H0) as O. destruct O as [O _]. cbn. auto.
  - intros j m Hj. apply Kx in Hj; auto. exact (z_call H0 j m Hj).
  - intros j Hj. cbn in Hj. destruct Hj as [Hj|Hj]; [discriminate|]. exact (z_ou H0 j Hj).
  - intros j Hj. assert (Hj' : In (KAfterNext j) (KOnUnsub2 :: K) \/ (exists m, In (KCall j m) (KOnUnsub2 :: K)) \/ co (s_inner s j) = true).
    { destruct Hj as [Hj|[(m & Hj)|Hj]]; [left; apply Kx; auto|right; left; exists m; apply Kx; auto|auto]. }
    destruct (z_busy H0 j Hj') as [Q|[Q1 Q2]]; [now left|]. right. split; [exact Q1|]. intros [Q|[Q|Q]]; try discriminate. apply Q2. now right.
  - intros j Hj. apply (z_free H0) in Hj. destruct Hj as [Hj|Hj]; [discriminate|auto].
  - intros Q1 Q2. destruct (z_tear H0 Q1 Q2) as (K2 & Q). discriminate.
  - intros HD. destruct (z_fin H0 HD) as [F1 F2]. cbn [rest endsT ends fin] in F1. destruct F1 as [_ F1]. split; [apply (@fin_rest K F1)|].
    intros x K' _ _. right. right. auto.
  - intros HD _ i Hi. destruct (Nc HD i Hi).
  - intros HD j Hj. destruct (Nl HD j Hj).
  - intros HD _ j Hj. destruct (Nl HD j Hj).
  - intros HD i Hi. exact (z_down H0 HD i Hi).
  - intros i K' Q. discriminate.
  - congruence.
Qed.

Lemma pop_one : forall c K s, Z (c :: K) s -> num liv s + nadv ([] : list cmd) + length (pend ([] : list cmd)) <= 1.
Proof. intros c K s H. pose proof (z_one H). unfold nadv, pend. cbn. lia. Qed.
Lemma pop_adv : forall s, 0 < nadv ([] : list cmd) + length (pend ([] : list cmd)) -> D s = false.
Proof. unfold nadv, pend. cbn. lia. Qed.

Lemma step_Z : forall c K s s' K1, I1 (c :: K) s -> Z (c :: K) s -> step c s = Some (s', K1) -> Z (K1 ++ K) s'.
Proof.
  intros c K s s' K1 H H0 R. assert (H' := step_I1 (le_n 1) H R). assert (F := j_fr H). apply Forall_inv in F.
  assert (One := z_one H0). destruct (I1_top H) as (T1 & T2 & T3). rewrite nadv_cons, pend_cons, T2, T3 in One.
  destruct c as [m| | | |i l|i m|i|i|i|i|i| |i| |i]; cbn [okf] in F; cbn [is_adv pend1 length app Nat.add] in One.
  - eapply Z_tell; eauto.
  - cbn [HoModel.step] in R. destruct (s_torn s) eqn:Et; injection R as <- <-.
    + eapply (@Z_plain _ _ [] _ _ H H0); eauto using like_refl, pop_one, pop_adv; discriminate.
    + apply Z_tear; auto.
  - injection R as <- <-. eapply (@Z_plain _ _ [] _ _ H H0); eauto using pop_one, pop_adv; try discriminate.
    constructor; auto. cbn. apply sun_e.
  - cbn [HoModel.step] in R. assert (HD : D s = false) by (apply (z_adv H0); rewrite nadv_cons; cbn; lia).
    destruct (s_queue s) as [|[i l] q]; injection R as <- <-.
    + eapply (@Z_plain _ _ [] _ _ H H0); eauto using like_refl, pop_one, pop_adv; discriminate.
    + eapply (@Z_plain _ _ [KCreate i l] _ _ H H0); eauto; try discriminate; try reflexivity.
      * constructor; auto.
      * cbn. lia.
  - eapply Z_create; eauto.
  - cbn [HoModel.step] in R. destruct (i_closed (s_inner s i)) eqn:Ec; [|destruct (i_sub (s_inner s i)) eqn:Es]; cbn [orb negb] in R.
    + injection R as <- <-. eapply (@Z_plain _ _ [] _ _ H H0); eauto using like_refl, pop_one, pop_adv; discriminate.
    + destruct (call_live H H0 Ec Es) as [Hl HD]. destruct m as [a|e| |].
      * injection R as <- <-. apply Z_next; auto.
      * destruct (set_error (s_down (log s (TIn i (Err e))))) as [d|] eqn:Ed; [|discriminate]. injection R as <- <-.
        apply se_some in Ed. destruct Ed as (_ & U2 & _).
        eapply (@Z_close _ _ [KTell (Err e); KUnsub i] _ _ H H0); eauto; try discriminate.
        -- unfold D. cbn [s_down with_down]. rewrite closed_split, U2. now rewrite !orb_true_r.
        -- intros j Hj. cbn [app before]. destruct (i =? j) eqn:Q; auto. apply Nat.eqb_neq in Q.
           destruct (ope_split _ Hj) as [Z1|Z1]; [destruct Q; exact (@live_eq _ _ _ _ H H0 Hl Z1)|].
           apply (co_before j H) in Z1. cbn [before] in Z1. apply Nat.eqb_neq in Q. now rewrite Q in Z1.
      * injection R as <- <-. apply Z_complete; auto.
      * injection R as <- <-. eapply (@Z_plain _ _ [KUnsub i] _ _ H H0); eauto; try discriminate; try reflexivity.
        -- constructor; auto.
    + injection R as <- <-. eapply (@Z_plain _ _ [] _ _ H H0); eauto using like_refl, pop_one, pop_adv; discriminate.
  - cbn [HoModel.step] in R. destruct (t_shut (s_told s)) eqn:Es; injection R as <- <-.
    + assert (Hl := z_an H0 i (or_introl eq_refl)). eapply (@Z_close _ _ [KUnsub i] _ _ H H0); eauto; try discriminate.
      * unfold D. cbn. apply sun_cl.
      * intros j Hj. cbn [app before]. destruct (i =? j) eqn:Q; auto. apply Nat.eqb_neq in Q.
        destruct (ope_split _ Hj) as [Z1|Z1]; [destruct Q; exact (@live_eq _ _ _ _ H H0 Hl Z1)|]. apply (co_before j H) in Z1. exact Z1.
    + eapply (@Z_plain _ _ [] _ _ H H0); eauto using like_refl, pop_one, pop_adv; discriminate.
  - cbn [HoModel.step] in R. destruct (s_nc s) as [|nc] eqn:En; [discriminate|]. destruct (can_downstream_complete _) eqn:Ec.
    + destruct (set_complete _) as [d|] eqn:Ed; [|discriminate]. injection R as <- <-. apply sc_some in Ed. destruct Ed as (_ & U2 & _).
      assert (N0 : num liv s = 0).
      { unfold can_downstream_complete in Ec. rewrite !andb_true_iff in Ec. destruct Ec as [[[_ Ec] _] _]. apply Nat.eqb_eq in Ec. cbn in Ec.
        pose proof (j_nc H) as Q. rewrite nic_cons in Q. cbn [is_ic] in Q. lia. }
      eapply (@Z_close _ _ [KTell Cmp] _ _ H H0); eauto; try discriminate.
      * unfold D. cbn [s_down with_down]. rewrite closed_split, U2. now rewrite !orb_true_r.
      * intros j Hj. destruct (ope_split _ Hj) as [Z1|Z1]; [rewrite (no_live j H N0) in Z1; discriminate|]. apply (co_before j H) in Z1. exact Z1.
    + injection R as <- <-. eapply (@Z_plain _ _ [] _ _ H H0); eauto using pop_one, pop_adv; try discriminate. constructor; auto.
  - cbn [HoModel.step] in R. destruct (i_closed (s_inner s i)) eqn:Ec.
    + unfold do_unsub in R. rewrite Ec in R. injection R as <- <-. eapply (@Z_plain _ _ [] _ _ H H0); eauto using like_refl, pop_one, pop_adv; try discriminate.
      intros j Q. inversion Q; subst. unfold ope. now rewrite Ec, andb_false_r.
    + eapply Z_unsub; eauto.
  - cbn [HoModel.step] in R. destruct (existsb (Nat.eqb i) (s_busy s)) eqn:Eb.
    + injection R as <- <-. eapply (@Z_plain _ _ [] _ _ H H0); eauto using like_refl, pop_one, pop_adv; try discriminate.
      intros j Q Hj HD. inversion Q; subst j. apply existsb_exists in Eb. destruct Eb as (x & Hx & Ex). apply Nat.eqb_eq in Ex. subst x.
      assert (Hs : shut s = true) by (destruct (j_end H (KUnsubFrom i) (or_introl eq_refl) eq_refl); auto; discriminate). split; auto.
      destruct (z_fin H0 HD) as [F1 F2]. destruct (F2 _ _ eq_refl eq_refl) as [Z1|[(j & K2 & Z1)|Z1]].
      * apply (z_free H0) in Hx. apply (@rest_in _ _ (eq_refl : endsT (KFree i) = false)) in Hx. rewrite Z1 in Hx. destruct Hx.
      * assert (Z2 : In (KAfterNext j) (KUnsubFrom i :: K)) by (apply in_rest; rewrite Z1; now left).
        assert (j = i) by exact (@live_eq _ _ _ _ H H0 (z_an H0 j Z2) Hj). subst j. destruct Z2 as [Z2|Z2]; [discriminate|auto].
      * apply liv_ope in Hj. rewrite Z1 in Hj. discriminate.
    + destruct (i_closed (s_inner s i)) eqn:Ec.
      * unfold do_unsub in R. rewrite Ec in R. injection R as <- <-. eapply (@Z_plain _ _ [] _ _ H H0); eauto using like_refl, pop_one, pop_adv; try discriminate.
        intros j Q Hj. inversion Q; subst. destruct (liv_parts _ Hj) as (_ & _ & Z1). congruence.
      * eapply Z_unsub; eauto. right. split; auto. intros Q.
        assert (existsb (Nat.eqb i) (s_busy s) = true) by (apply existsb_exists; exists i; split; auto; apply Nat.eqb_refl). congruence.
  - destruct F as [F1 F2]. cbn [HoModel.step] in R. injection R as <- <-.
    change (if i_key (s_inner s i) <? length (s_slab s) then length (s_slab s) - 1 else length (s_slab s)) with (others i s) in *.
    change (is_closed (s_down s)) with (D s) in *. cbn [Nat.sub] in *.
    destruct (others i s =? 0) eqn:Eo; [destruct (D s) eqn:HD|]; cbn [andb negb app] in *.
    + eapply (@Z_plain _ _ [KOnUnsub2] _ _ H H0); eauto using like_refl; try discriminate; try reflexivity; cbn; lia.
    + apply Nat.eqb_eq in Eo. pose proof (z_on H0 eq_refl HD Eo) as N0.
      eapply (@Z_plain _ _ [KAdvance; KOnUnsub2] _ _ H H0); eauto using like_refl; try discriminate; try reflexivity. unfold nadv, pend. cbn. lia.
    + eapply (@Z_plain _ _ [KOnUnsub2] _ _ H H0); eauto using like_refl; try discriminate; try reflexivity; cbn; lia.
  - injection R as <- <-. destruct (can_downstream_unsubscribe s) eqn:E1; [destruct (is_errored (s_up s)) eqn:E2; [|destruct (is_errored (s_down s)) eqn:E3]|];
      cbn [andb negb] in *; try (eapply (@Z_plain _ _ [] _ _ H H0); eauto using like_refl, pop_one, pop_adv; discriminate).
    apply Z_last; auto.
  - cbn [HoModel.step] in R. destruct (i_closed (s_inner s i)) eqn:Ec.
    + injection R as <- <-. eapply (@Z_plain _ _ [] _ _ H H0); eauto using like_refl, pop_one, pop_adv; try discriminate.
      intros j Q. inversion Q; subst. left. unfold liv. now rewrite Ec, andb_false_r.
    + destruct (nth_error (s_slab s) (i_key (s_inner s i))) as [l|] eqn:En; injection R as <- <-.
      * apply Z_subscribed; auto.
      * eapply (@Z_plain _ _ [KUnsub i] _ _ H H0); eauto using like_refl; try discriminate; try reflexivity.
        -- intros j Q. inversion Q; subst. right. now left.
        -- cbn. lia.
  - contradiction.
  - injection R as <- <-. apply Z_free; auto.
Qed.

(** *** What happens from outside. *)
Definition I4 K s : Prop := I1 K s /\ Z K s.
Lemma step_I4 : forall c K s s' K1, I4 (c :: K) s -> step c s = Some (s', K1) -> I4 (K1 ++ K) s'.
Proof. intros c K s s' K1 [H H0] R. split; [eapply step_I1; eauto|eapply step_Z; eauto]. Qed.
Lemma unsub_fine1 : forall c i K s, I1 (c :: K) s -> i_sub (s_inner s i) = true -> do_unsub i s <> None.
Proof.
  intros c i K s H Hi. unfold do_unsub. destruct (i_closed (s_inner s i)) eqn:Ec; [discriminate|].
  assert (Hlt := j_sub H _ Hi).
  assert (0 < num ope s) by (apply (@num_pos A E _ i); auto; unfold ope; now rewrite Hi, Ec).
  pose proof (j_nu H). destruct (s_nu s) as [|nu]; [lia|]. cbn [minus_one]. destruct (i_completed (s_inner s i)) eqn:Q; [discriminate|].
  assert (0 < num liv s) by (apply (@num_pos A E _ i); auto; unfold liv; now rewrite Hi, Ec, Q).
  pose proof (j_nc H). destruct (s_nc s) as [|nc]; [lia|]. discriminate.
Qed.
Lemma step_fine1 : forall c K s, I4 (c :: K) s -> step c s <> None.
Proof.
  intros c K s (H & S). assert (F := j_fr H). apply Forall_inv in F.
  destruct c as [m| | | |i l|i m|i|i|i|i|i| |i| |i]; cbn [HoModel.step]; cbn [okf] in F; try discriminate.
  - destruct (t_shut _); discriminate.
  - destruct (s_torn s); discriminate.
  - destruct (s_queue s) as [|[i l] q]; discriminate.
  - destruct (i_closed (s_inner s i)) eqn:Ec; [discriminate|]. destruct (i_sub (s_inner s i)) eqn:Es; [|discriminate]. cbn [orb negb].
    destruct m as [a|e| |]; try discriminate. destruct (call_live H S Ec Es) as [_ Dn]. unfold D in Dn.
    unfold set_error. change (s_down (log s (TIn i (Err e)))) with (s_down s). rewrite Dn. discriminate.
  - destruct (t_shut _); discriminate.
  - pose proof (j_nc H) as Hn. rewrite nic_cons in Hn. cbn [is_ic] in Hn. destruct (s_nc s) as [|nc]; [lia|].
    destruct (can_downstream_complete _) eqn:Ed; [|discriminate]. unfold can_downstream_complete in Ed. rewrite !andb_true_iff in Ed. destruct Ed as [_ Ed]. apply negb_true_iff in Ed.
    unfold set_complete. rewrite Ed. discriminate.
  - eapply unsub_fine1; eauto.
  - destruct (existsb _ _); [discriminate|]. eapply unsub_fine1; eauto.
  - destruct (i_closed _); [discriminate|]. destruct (nth_error _ _); discriminate.
  - destruct F.
Qed.

Lemma Z_nil : forall s, I1 [] s -> Z [] s ->
  (forall i, co (s_inner s i) = false) /\ (forall i, ope (s_inner s i) = true -> In i (concat (s_slab s)) /\ liv (s_inner s i) = true /\ D s = false) /\
  s_busy s = [] /\ (shut s = true -> s_torn s = true).
Proof.
  intros s H H0.
  assert (Nc : forall i, co (s_inner s i) = false) by (intros i; destruct (co (s_inner s i)) eqn:Q; auto; apply (co_before i H) in Q; discriminate).
  split; auto. split; [|split].
  - intros i Hi. assert (HD : D s = false) by (destruct (D s) eqn:Q; auto; apply (z_down H0 Q) in Hi; discriminate).
    assert (Hl : liv (s_inner s i) = true) by (destruct (ope_split _ Hi) as [|Q]; auto; rewrite Nc in Q; discriminate).
    split; auto. destruct (z_in H0 HD i Hl) as [[]|[Q|[[]|[[[] _]|[]]]]]; auto.
  - destruct (s_busy s) as [|b l] eqn:Q; auto. assert (In b (s_busy s)) by (rewrite Q; now left). apply (z_free H0) in H1. destruct H1.
  - intros Q. destruct (s_torn s) eqn:Q2; auto. destruct (z_tear H0 Q Q2) as [? ?]. discriminate.
Qed.

(** The outer observable says something. *)
Lemma Z_begin : forall K1 s s', I1 [] s -> Z [] s -> I1 K1 s' -> s_inner s' = s_inner s -> s_slab s' = s_slab s -> s_busy s' = s_busy s ->
  s_torn s' = s_torn s -> shut s' = shut s -> D s' = D s -> s_torn s = false -> shut s = false ->
  (forall c, In c K1 -> match c with KTell m => is_closing m = true | KTear => True | KCreate _ _ => D s = false /\ K1 = [c] /\ is_errored (s_up s') = false | _ => False end) ->
  (K1 = [] -> is_errored (s_up s') = false) -> num liv s' + nadv K1 + length (pend K1) <= 1 -> (num liv s' = num liv s) -> Z K1 s'.
Proof.
  intros K1 s s' H H0 H' L1 L2 L3 L4 L5 L6 Tn Sh HK Hn One Hl. destruct (Z_nil H H0) as (Nc & No & Nb & Nt).
  assert (Kx : forall c, In c K1 -> endsT c = true \/ exists i l, c = KCreate i l) by (intros c Hc; specialize (HK c Hc); destruct c; try contradiction; cbn; eauto).
  assert (Na : noan K1) by (intros j Hj; apply HK in Hj; exact Hj).
  assert (Sp : rest K1 = [] \/ exists i l, K1 = [KCreate i l]).
  { destruct (rest K1) as [|c r] eqn:Q; auto. right. assert (Hc : In c (rest K1)) by (rewrite Q; now left). assert (Hc' := in_rest _ _ Hc).
    assert (Ec : endsT c = false).
    { clear - Q. revert Q. induction K1 as [|x K1 IH]; cbn; [discriminate|]. destruct (endsT x) eqn:E1; auto. intros Z1. inversion Z1; subst. auto. }
    destruct (Kx c Hc') as [Z1|(i & l & ->)]; [congruence|]. destruct (HK _ Hc') as (_ & Z1 & _). eauto. }
  constructor; rewrite ?L1, ?L2, ?L3, ?L4, ?L5, ?L6, ?Tn, ?Nb; auto; try discriminate; try congruence.
  - left. intros j Hj. apply in_rest in Hj. exact (Na j Hj).
  - intros a K' ->. specialize (HK _ (or_introl eq_refl)). discriminate.
  - intros j Hj. destruct (Na j Hj).
  - assert (Q : forall c, In c K1 -> match c with KSubscribed _ | KFree _ => False | _ => True end) by (intros c Hc; specialize (HK c Hc); destruct c; auto).
    clear - Q. induction K1 as [|x K1 IH]; cbn; auto. split; [apply IH; intros; apply Q; now right|]. specialize (Q x (or_introl eq_refl)). destruct x; auto; contradiction.
  - intros i m Hi. apply HK in Hi. destruct Hi.
  - intros i Hi. assert (Q : In (KOnUnsub i) K1) by (destruct K1; cbn in *; auto). apply HK in Q. exact Q.
  - intros i [Hi|[(m & Hi)|Hi]]; [destruct (Na i Hi)|apply HK in Hi; destruct Hi|rewrite Nc in Hi; discriminate].
  - intros i [].
  - intros _. destruct Sp as [Q|(i & l & Q)].
    + rewrite Q. split; [exact I|]. auto.
    + rewrite Q. cbn. split; [split; [discriminate|exact I]|]. intros c K' Z1. inversion Z1; subst. discriminate.
  - intros _ j Hj. destruct (No j (liv_ope _ Hj)) as (Q & _). auto.
  - intros Q i Hi. destruct (No i Hi) as (_ & _ & Z1). congruence.
  - intros i K' ->. specialize (HK _ (or_introl eq_refl)). destruct HK.
  - intros Q. destruct (D s) eqn:HD; auto. exfalso. assert (Z1 : (exists i l, K1 = [KCreate i l]) -> False).
    { intros (i & l & ->). specialize (HK _ (or_introl eq_refl)). destruct HK as [HK _]. discriminate. }
    destruct Sp as [Sp|Sp]; auto. clear - Sp Q. induction K1 as [|x K1 IH]; [unfold nadv, pend in Q; cbn in Q; lia|]. cbn [rest] in Sp.
    rewrite nadv_cons, pend_cons in Q. destruct (endsT x) eqn:E1; [|discriminate]. destruct x; try discriminate; apply IH; auto.
  - intros HD Qe. destruct Sp as [Q|(i & l & Q)]; [split; auto; discriminate|]. exfalso. subst K1. specialize (HK _ (or_introl eq_refl)). destruct HK as (_ & _ & HK). congruence.
Qed.

Lemma perform_I4 : forall a s s' K, I4 [] s -> perform (Concurrent 1) a s = Some (s', K) -> I4 K s'.
Proof.
  intros a s s' K [H H0] R. assert (H' := perform_I1 (le_n 1) a H R). split; auto. destruct (Z_nil H H0) as (Nc & No & Nb & Nt).
  assert (One := z_one H0). change (num liv s + 0 + 0 <= 1) in One.
  assert (DS : shut s = false -> D s = false) by (intros Q; destruct (D s) eqn:Z1; auto; destruct (j_down H Z1); congruence || discriminate).
  assert (Up : shut s = false -> is_errored (s_up s) = false) by (intros Q; destruct (is_errored (s_up s)) eqn:Z1; auto; destruct (j_uperr H Z1); congruence || discriminate).
  destruct a as [l|e| | |i c]; cbn [perform] in R.
  - destruct (is_torn (Concurrent 1) s) eqn:Et; [injection R as <- <-; auto|]. cbn [is_torn] in Et. apply orb_false_iff in Et. destruct Et as [Es Et].
    assert (Hn : num liv (log (with_arrived s (S (s_arrived s))) (TArrive (s_arrived s))) = num liv s).
    { unfold num. cbn [s_arrived log with_arrived s_inner]. rewrite cnt_S. replace (s_inner s (s_arrived s)) with no_inner; [cbn; lia|]. symmetry. apply (j_none H).
      destruct (i_sub (s_inner s (s_arrived s))) eqn:Q; auto. apply (j_sub H) in Q. lia. }
    cbv zeta in R. destruct (_ <? _) eqn:En; injection R as <- <-.
    + apply Nat.ltb_lt in En. cbn in En. pose proof (j_nc H) as Q. change (s_nc s = num liv s + 0 + 0) in Q.
      apply (@Z_begin _ s); auto; try discriminate.
      * intros c [<-|[]]. auto.
      * match goal with |- num liv ?x + _ + _ <= _ => change (num liv x) with (num liv (log (with_arrived s (S (s_arrived s))) (TArrive (s_arrived s)))) end. rewrite Hn. unfold nadv, pend. cbn. lia.
    + apply (@Z_begin _ s); auto; try contradiction.
      * match goal with |- num liv ?x + _ + _ <= _ => change (num liv x) with (num liv (log (with_arrived s (S (s_arrived s))) (TArrive (s_arrived s)))) end. rewrite Hn. unfold nadv, pend. cbn. lia.
  - destruct (is_torn (Concurrent 1) s) eqn:Et; [injection R as <- <-; auto|]. cbn [is_torn] in Et. apply orb_false_iff in Et. destruct Et as [Es Et].
    destruct (set_error _) as [u|]; [|discriminate]. injection R as <- <-. apply (@Z_begin _ s); auto; try discriminate.
    + intros c [<-|[<-|[]]]; auto.
  - destruct (is_torn (Concurrent 1) s) eqn:Et; [injection R as <- <-; auto|]. cbn [is_torn] in Et. apply orb_false_iff in Et. destruct Et as [Es Et].
    destruct (set_complete _) as [u|] eqn:Eu; [|discriminate]. destruct (set_unsubscribe u) as [u'|] eqn:Eu'; [|discriminate].
    apply sc_some in Eu. destruct Eu as (U1 & U2 & U3 & U4). apply su_some in Eu'. destruct Eu' as (V1 & V2 & V3 & V4).
    destruct (can_downstream_complete _); injection R as <- <-; apply (@Z_begin _ s); auto; try discriminate; try contradiction.
    + intros c [<-|[<-|[]]]; auto.
    + intros _. cbn. rewrite V3, U3. auto.
  - destruct (is_torn (Concurrent 1) s) eqn:Et; [injection R as <- <-; auto|].
    unfold unsubscribe in R. replace (is_torn (Concurrent 1) (log s (TUp Uns))) with false in R by (symmetry; exact Et). injection R as <- <-.
    cbn [is_torn] in Et. apply orb_false_iff in Et. destruct Et as [Es Et]. apply (@Z_begin _ s); auto; try discriminate.
    intros c [<-|[]]; auto.
  - destruct (i_closed (s_inner s i)) eqn:Ec; [injection R as <- <-; auto|]. destruct (i_sub (s_inner s i)) eqn:Es; [|injection R as <- <-; auto].
    injection R as <- <-. destruct (No i) as (Hin & Hl & HD); [unfold ope; now rewrite Es, Ec|]. set (s' := with_busy s (i :: s_busy s)).
    assert (Hx : forall x, In x [KCall i c; KFree i] -> x = KCall i c \/ x = KFree i) by (cbn; intuition).
    constructor; rewrite ?nadv_cons, ?pend_cons; cbn [is_adv pend1 app Nat.add rest endsT ends fin ord tl]; auto; try (unfold nadv, pend; cbn; lia).
    + left. intros j Hj. apply Hx in Hj. destruct Hj; discriminate.
    + intros a K' Q. discriminate.
    + intros j Hj. apply Hx in Hj. destruct Hj; discriminate.
    + intros j m Hj. apply Hx in Hj. destruct Hj as [Hj|Hj]; [inversion Hj; subst; exact Es|discriminate].
    + intros j [Hj|[]]. discriminate.
    + intros j [Hj|[(m & Hj)|Hj]]; [apply Hx in Hj; destruct Hj; discriminate| |].
      * apply Hx in Hj. destruct Hj as [Hj|Hj]; [inversion Hj; subst; left; now left|discriminate].
      * change (co (s_inner s j) = true) in Hj. rewrite Nc in Hj. discriminate.
    + intros j Hj. cbn in Hj. rewrite Nb in Hj. destruct Hj as [<-|[]]. cbn. auto.
    + intros Q1 Q2. apply Nt in Q1. change (s_torn s = false) in Q2. congruence.
    + intros _. split; [repeat split; discriminate|]. intros x K' Q Hx'. inversion Q; subst. discriminate.
    + intros _ _ j Hj. change (co (s_inner s j) = true) in Hj. rewrite Nc in Hj. discriminate.
    + intros _ j Hj. destruct (No j (liv_ope _ Hj)) as (Q & _). auto.
    + intros _ Ht j Hj. destruct (z_live H0 HD Ht j Hj) as [Q|[[]|[_ []]]]. auto.
    + intros Q. change (D s = true) in Q. congruence.
    + intros j K' Q. discriminate.
    + intros _ Qe. exfalso. destruct (z_err H0 HD Qe) as [_ Q]. rewrite Q in Hin; [destruct Hin|]. apply Nt.
      destruct (j_uperr H Qe); auto. discriminate.
Qed.

Lemma init_I4 : I4 [] init.
Proof.
  split; [apply init_I1; lia|]. constructor; cbn; auto; try discriminate; try contradiction; try (unfold nadv, pend, num; cbn; lia).
  left. intros j [].

Qed.
Lemma step_up1 : forall c s s' K1, step c s = Some (s', K1) -> outer_completed (s_tr s') = outer_completed (s_tr s).
Proof.
  intros c s s' K1 R. destruct (mute_tr _ _ _ _ R) as [-> |(e & -> & He)]; auto. rewrite outer_completed_snoc.
  destruct e; try contradiction; apply orb_false_r.
Qed.
Lemma flatten_fine1 : forall fuel h s closed gone, contract closed gone (outer h) -> I4 [] s ->
  (closed = false -> outer_completed (s_tr s) = false) -> flatten down (Concurrent 1) fuel h s <> Panic.
Proof.
  intros fuel h. induction h as [|a h IH]; intros s closed gone C I0 Hc; cbn [flatten]; [discriminate|].
  assert (G : forall s' K closed' gone', perform (Concurrent 1) a s = Some (s', K) -> contract closed' gone' (outer h) ->
    (closed' = false -> outer_completed (s_tr s') = false) ->
    match drive down (Concurrent 1) fuel K s' with Fine s1 => flatten down (Concurrent 1) fuel h s1 | r => r end <> Panic).
  { intros s' K closed' gone' R C' Hc'. pose proof (perform_I4 a I0 R) as I1'.
    destruct (drive down (Concurrent 1) fuel K s') as [s1| |] eqn:Ed; [|exfalso|discriminate].
    - assert (Q : I4 [] s1 /\ outer_completed (s_tr s1) = outer_completed (s_tr s')).
      { refine (@drive_inv A E down (Concurrent 1) (fun K x => I4 K x /\ outer_completed (s_tr x) = outer_completed (s_tr s')) _ fuel K s' s1 _ Ed); auto.
        intros c K0 x x' K1 [Z1 Z2] Rx. split; [eapply step_I4; eauto|]. rewrite <- Z2. eapply step_up1; eauto. }
      destruct Q as [Q1 Q2]. apply (IH s1 closed' gone'); auto. intros Z. rewrite Q2. auto.
    - revert Ed. apply (@drive_fine A E down (Concurrent 1) I4); auto; intros; [eapply step_fine1; eauto|eapply step_I4; eauto]. }
  assert (Up : is_torn (Concurrent 1) s = false -> closed = false -> is_closed (s_up s) = false).
  { intros Et Hcl. destruct I0 as (H & _). cbn in Et. apply orb_false_iff in Et. destruct Et as [Et _].
    rewrite closed_split. specialize (Hc Hcl). rewrite <- (m_up (j_mir H)) in Hc. rewrite Hc. cbn.
    destruct (is_unsubscribed (s_up s)) eqn:Q1; [destruct (j_upuns H Q1); unfold shut in *; congruence|].
    destruct (is_errored (s_up s)) eqn:Q2; auto. destruct (j_uperr H Q2); unfold shut in *; [congruence|discriminate]. }
  destruct (perform (Concurrent 1) a s) as [[s' K]|] eqn:R.
  - destruct a as [l|e| | |i c]; cbn [outer flat_map app] in C; cbn [contract] in C.
    + destruct C as [Hcl C]. apply (G s' K closed gone); auto. intros _. specialize (Hc Hcl). cbn [perform] in R.
      destruct (is_torn _ s); [inversion R; subst; auto|]. destruct (_ <? _); inversion R; subst; cbn; rewrite outer_completed_snoc, Hc; auto.
    + destruct C as [Hcl C]. apply (G s' K true gone); auto. discriminate.
    + destruct C as [Hcl C]. apply (G s' K true gone); auto. discriminate.
    + apply (G s' K true true); auto. discriminate.
    + apply (G s' K closed gone); auto. intros Hcl. cbn [perform] in R. destruct (_ || _); inversion R; subst; cbn; auto.
  - exfalso. destruct a as [l|e| | |i c]; cbn [outer flat_map app] in C; cbn [contract] in C; cbn [perform] in R.
    + destruct (is_torn _ s); [discriminate|]. destruct (_ <? _); discriminate.
    + destruct C as [Hcl C]. destruct (is_torn _ s) eqn:Et; [discriminate|]. specialize (Up eq_refl Hcl).
      unfold set_error in R. change (s_up (log s (TUp (Err e)))) with (s_up s) in R. rewrite Up in R. discriminate.
    + destruct C as [Hcl C]. destruct (is_torn _ s) eqn:Et; [discriminate|]. specialize (Up eq_refl Hcl).
      destruct (set_complete (s_up (log s (TUp Cmp)))) as [u|] eqn:Eu.
      * pose proof (sc_some _ Eu) as (_ & _ & _ & U). unfold set_unsubscribe in R. rewrite U in R. cbn in Up. rewrite closed_split in Up. apply orb_false_iff in Up. destruct Up as [Up _].
        cbn [s_up log] in R. rewrite Up in R. destruct (can_downstream_complete _); discriminate.
      * unfold set_complete in Eu. change (s_up (log s (TUp Cmp))) with (s_up s) in Eu. rewrite Up in Eu. discriminate.
    + destruct (is_torn _ s); discriminate.
    + destruct (_ || _); discriminate.
Qed.
Lemma concat_fine : forall fuel h, contract false false (outer h) -> flatten down (Concurrent 1) fuel h init <> Panic.
Proof. intros fuel h C. apply (@flatten_fine1 fuel h init false false C); auto using init_I4. Qed.
End Conc4.
