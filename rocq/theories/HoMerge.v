(** Proofs about [MergeSpec]: the result of the concurrent subscriber. *)
From Coq Require Import NArith.
From Verif Require Import Base SubscrModel LifeModel CombModel HoModel HoSpec HoProofs HoConc HoConc2 MergeModel MergeSpec.
Set Implicit Arguments.

Lemma cons_inv_snoc : forall X (p s l : list X) a b, l ++ [b] = p ++ a :: s ->
  (s = [] /\ p = l /\ a = b) \/ (exists s', s = s' ++ [b] /\ l = p ++ a :: s').
Proof.
  intros X p s l a b H. destruct s as [|y s _] using rev_ind.
  - apply app_inj_tail in H. destruct H. left. auto.
  - rewrite app_comm_cons, app_assoc in H. apply app_inj_tail in H. destruct H as [H ->]. right. eauto.
Qed.

(** *** About traces that obey some laws. *)
Section Trace.
Variables A E : Type.
Variable down : list (ncall A E) -> bool.
Notation call := (ncall A E).
Notation ev := (HoModel.ev A E).
Implicit Types (l p q : list ev) (e : ev).

Definition due (e : ev) : option call := match e with TUp Uns => Some Uns | _ => owed e end.
Definition law p e : Prop :=
  match e with
  | TIn i c => completed i p = false /\ i < arrivals p /\ c <> Uns
  | TArrive i => open down p /\ ~ all_completed p
  | TUp c => open down p /\ ~ all_completed p /\ (forall a, c <> Nxt a)
  | _ => True
  end.
Record lawful l : Prop := {
  w_law : always law l;
  w_rel : always (relays down (@all_completed A E)) l;
  w_due : forall p e s c, l = p ++ e :: s -> open down p -> due e = Some c -> s = [] \/ exists s', s = TOut c :: s'
}.

Lemma until_app : forall (l pre x : list call), (forall os c os', l = os ++ c :: os' -> down (pre ++ os ++ [c]) = false) ->
  until down pre (l ++ x) = l ++ until down (pre ++ l) x.
Proof.
  induction l as [|c l IH]; intros pre x H; cbn; [now rewrite app_nil_r|].
  pose proof (H [] c l eq_refl) as Q. cbn in Q. rewrite Q. f_equal. rewrite IH, <- app_assoc; auto.
  intros os d os' ->. rewrite <- app_assoc. apply (H (c :: os) d os'). auto.
Qed.
Lemma open_until q x : open down q -> until down [] (outs q ++ x) = outs q ++ until down (outs q) x.
Proof. intros O. apply until_app. intros os c os' H. cbn. apply (O os c os' H). Qed.
Lemma open_quiet q e : (forall c, e <> TOut c) -> (open down (q ++ [e]) <-> open down q) /\ outs (q ++ [e]) = outs q.
Proof.
  intros H. assert (Q : outs (q ++ [e]) = outs q) by (rewrite outs_snoc; destruct e; try apply app_nil_r; now destruct (H c)).
  split; auto. split; apply open_same; congruence.
Qed.
Lemma prefix_open q e : open down (q ++ [e]) -> open down q.
Proof. intros H os c os' Q. apply (H os c (os' ++ match e with TOut c => [c] | _ => [] end)). rewrite outs_snoc, Q, <- app_assoc. auto. Qed.
Lemma lawful_snoc q e : lawful (q ++ [e]) -> lawful q /\ law q e /\ relays down (@all_completed A E) q e /\
  (forall p e' c, q = p ++ [e'] -> open down p -> due e' = Some c -> e = TOut c).
Proof.
  intros [H1 H2 H3]. split; [|split; [|split]].
  - split.
    + intros p x s ->. apply (H1 p x (s ++ [e])). now rewrite <- app_assoc.
    + intros p x s ->. apply (H2 p x (s ++ [e])). now rewrite <- app_assoc.
    + intros p x s c -> Ho Hd. destruct (H3 p x (s ++ [e]) c) as [Q|[s' Q]]; auto; [now rewrite <- app_assoc|destruct s; discriminate|].
      destruct s; [now left|]. injection Q as -> Q. right. eauto.
  - apply (H1 q e []). auto.
  - apply (H2 q e []). auto.
  - intros p e' c -> Ho Hd. destruct (H3 p e' [e] c) as [Q|[s' Q]]; auto; [now rewrite <- app_assoc|discriminate|]. now injection Q.
Qed.

(** How many have not completed. *)
Definition remain l : nat := cnt (fun i => negb (completed i l)) (arrivals l).
Lemma remain_zero l : remain l = 0 <-> forall i, i < arrivals l -> completed i l = true.
Proof.
  unfold remain. split.
  - intros H i Hi. apply (@cnt_zero _ _ H) in Hi. now apply negb_false_iff.
  - intros H. apply cnt_none. intros i Hi. now rewrite H.
Qed.
Lemma remain_quiet q e : match e with TArrive _ | TIn _ Cmp => False | _ => True end -> remain (q ++ [e]) = remain q.
Proof.
  intros H. unfold remain. rewrite arrivals_snoc. replace (match e with TArrive _ => 1 | _ => 0 end) with 0 by (destruct e; tauto).
  rewrite Nat.add_0_r. apply cnt_ext. intros i _. rewrite completed_snoc. destruct e as [| | |j []| |]; try tauto; now rewrite orb_false_r.
Qed.
Lemma remain_arrive q i : completed (arrivals q) q = false -> remain (q ++ [TArrive i]) = S (remain q).
Proof.
  intros H. unfold remain. rewrite arrivals_snoc, Nat.add_1_r, cnt_S, completed_snoc, H. cbn. rewrite Nat.add_1_r. f_equal.
  apply cnt_ext. intros j _. now rewrite completed_snoc, orb_false_r.
Qed.
Lemma remain_complete q i : i < arrivals q -> completed i q = false -> S (remain (q ++ [TIn i Cmp])) = remain q.
Proof.
  intros Hi H. unfold remain. rewrite arrivals_snoc, Nat.add_0_r.
  pose proof (@cnt_set (fun j => negb (completed j q)) (fun j => negb (completed j (q ++ [TIn i Cmp]))) (arrivals q) i Hi) as Q.
  cbn beta in Q. rewrite H, completed_snoc, Nat.eqb_refl, orb_true_r in Q. cbn in Q. rewrite Nat.add_0_r, Nat.add_1_r in Q. apply Q.
  intros j Hj. rewrite completed_snoc. replace (i =? j) with false by (symmetry; apply Nat.eqb_neq; auto). now rewrite orb_false_r.
Qed.
Lemma lawful_arrived q : lawful q -> forall i, completed i q = true -> i < arrivals q.
Proof.
  induction q as [|e q IH] using rev_ind; intros H i Hc; [discriminate|]. apply lawful_snoc in H. destruct H as (H & Hl & _).
  rewrite completed_snoc in Hc. rewrite arrivals_snoc. apply orb_true_iff in Hc. destruct Hc as [Hc|Hc]; [apply (IH H) in Hc; lia|].
  destruct e as [| | |j []| |]; try discriminate. apply Nat.eqb_eq in Hc. subst. destruct Hl as (_ & Hl & _). lia.
Qed.
Lemma lawful_fresh q : lawful q -> completed (arrivals q) q = false.
Proof. intros H. destruct (completed (arrivals q) q) eqn:Q; auto. apply (lawful_arrived H) in Q. lia. Qed.
Lemma all_completed_dec q : all_completed q \/ ~ all_completed q.
Proof.
  destruct (outer_completed q) eqn:Q1; [|right; intros [H _]; congruence].
  destruct (Nat.eq_dec (remain q) 0) as [Z|Z].
  - left. split; auto. now apply remain_zero.
  - right. intros [_ H]. apply Z. now apply remain_zero.
Qed.
Lemma open_dec q : open down q \/ ~ open down q.
Proof.
  induction q as [|e q IH] using rev_ind; [left; apply open_nil|].
  destruct IH as [IH|IH]; [|right; intros H; apply IH; eapply prefix_open; eauto].
  destruct e as [| | | | |c]; try (left; apply open_quiet; [discriminate|auto]; fail).
  destruct (is_closing c) eqn:Q1; [right; rewrite open_out; intros (_ & Q & _); congruence|].
  destruct (down (outs q ++ [c])) eqn:Q2; [right; rewrite open_out; intros (_ & _ & Q); congruence|].
  left. rewrite open_out. auto.
Qed.

(** *** Merging. *)
Definition mg := @merged A E 0 false.
(** Nothing is owed. *)
Definition settled q : Prop := forall p e, q = p ++ [e] -> due e = None.
Definition run_on q : Prop := forall r, mg (q ++ r) = outs q ++ merged (remain q) (outer_completed q) r.
Inductive state q : Prop :=
| Running : open down q -> settled q -> outer_unsubscribed q = false -> ~ all_completed q -> run_on q -> state q
| Owing p e c : q = p ++ [e] -> due e = Some c -> open down q ->
    (forall r, mg (q ++ r) = outs q ++ match c with Nxt _ => c :: merged (remain q) (outer_completed q) r | _ => [c] end) ->
    (forall a, c = Nxt a -> ~ all_completed q /\ outer_unsubscribed q = false) -> state q
| Completing : open down q -> settled q -> outer_unsubscribed q = false -> all_completed q -> (forall r, mg (q ++ r) = outs q ++ [Cmp]) -> state q
| Ended : ~ open down q -> (forall r, until down [] (mg (q ++ r)) = outs q) -> state q.

Lemma quiet_due e c : due e = Some c -> forall m, e <> TOut m.
Proof. intros H m ->. discriminate. Qed.
Lemma all_completed_snoc q e : match e with TArrive _ | TUp Cmp | TIn _ Cmp => False | _ => True end -> (all_completed (q ++ [e]) <-> all_completed q).
Proof.
  intros H. unfold all_completed. rewrite outer_completed_snoc, arrivals_snoc.
  replace (match e with TUp Cmp => true | _ => false end) with false by (destruct e as [|[]| | | |]; tauto).
  replace (match e with TArrive _ => 1 | _ => 0 end) with 0 by (destruct e; tauto).
  rewrite orb_false_r, Nat.add_0_r.
  assert (Q : forall i, completed i (q ++ [e]) = completed i q).
  { intros i. rewrite completed_snoc. destruct e as [| | |j []| |]; try tauto; apply orb_false_r. }
  split; intros [H1 H2]; split; auto; intros i Hi; specialize (H2 i Hi); congruence.
Qed.
Lemma settled_snoc q e : due e = None -> settled (q ++ [e]).
Proof. intros H p x Q. apply app_inj_tail in Q. destruct Q as [_ <-]. auto. Qed.
Lemma app_one (q r : list ev) e : (q ++ [e]) ++ r = q ++ e :: r. Proof. now rewrite <- app_assoc. Qed.
Lemma until_one pre (c : call) : until down pre [c] = [c]. Proof. cbn. now destruct (down _). Qed.

Lemma all_state q : lawful q -> state q.
Proof.
  induction q as [|e q IH] using rev_ind; intros H.
  { apply Running; auto using open_nil.
    - intros p x Q. destruct p; discriminate.
    - intros [Q _]. discriminate.
    - intros r. reflexivity. }
  assert (Fr := H). apply lawful_snoc in H. destruct H as (H & Hl & Hr & Hd). specialize (IH H).
  destruct IH as [Ho Hs Hun Hn Hg|p e' c -> Hdue Ho Hg Hn|Ho Hs Hun Hc Hg|Ho Hg].
  - (* running *) destruct e as [i|c|i|i c|i|c].
    + (* an arrival *)
      destruct (@open_quiet q (TArrive i)) as [Oq Eq]; [discriminate|]. apply Running.
      * now apply Oq.
      * now apply settled_snoc.
      * now rewrite outer_unsubscribed_snoc, Hun.
      * intros [Q1 Q2]. specialize (Q2 (arrivals q)). rewrite arrivals_snoc, completed_snoc, (lawful_fresh H) in Q2. specialize (Q2 ltac:(lia)). discriminate.
      * intros r. rewrite app_one, Hg, Eq, remain_arrive, outer_completed_snoc, orb_false_r by now apply lawful_fresh. reflexivity.
    + (* the outer observable *)
      destruct Hl as (_ & _ & Hnn). destruct (@open_quiet q (TUp c)) as [Oq Eq]; [discriminate|]. destruct c as [a|x| |].
      * now destruct (Hnn a).
      * eapply Owing; [reflexivity|reflexivity|now apply Oq| |discriminate].
        intros r. now rewrite app_one, Hg, Eq.
      * destruct (Nat.eq_dec (remain q) 0) as [Z|Z].
        -- apply Completing; [now apply Oq|now apply settled_snoc|now rewrite outer_unsubscribed_snoc, Hun| |].
           ++ split; [now rewrite outer_completed_snoc, orb_true_r|]. rewrite <- remain_zero. now rewrite remain_quiet.
           ++ intros r. rewrite app_one, Hg, Eq, Z. reflexivity.
        -- apply Running; [now apply Oq|now apply settled_snoc|now rewrite outer_unsubscribed_snoc, Hun| |].
           ++ intros [_ Q]. rewrite <- remain_zero, remain_quiet in Q; auto.
           ++ intros r. rewrite app_one, Hg, Eq, remain_quiet, outer_completed_snoc, orb_true_r by auto. cbn [merged].
              apply Nat.eqb_neq in Z. now rewrite Z.
      * eapply Owing; [reflexivity|reflexivity|now apply Oq| |discriminate].
        intros r. now rewrite app_one, Hg, Eq.
    + destruct (@open_quiet q (TSub i)) as [Oq Eq]; [discriminate|]. apply Running; [now apply Oq|now apply settled_snoc|now rewrite outer_unsubscribed_snoc, Hun| |].
      * now rewrite all_completed_snoc.
      * intros r. rewrite app_one, Hg, Eq, remain_quiet, outer_completed_snoc, orb_false_r by auto. reflexivity.
    + (* an inner observable *)
      destruct Hl as (Hc & Hi & Hu). destruct (@open_quiet q (TIn i c)) as [Oq Eq]; [discriminate|]. destruct c as [a|x| |]; [| | |now destruct Hu].
      * eapply Owing; [reflexivity|reflexivity|now apply Oq| |].
        -- intros r. now rewrite app_one, Hg, Eq, remain_quiet, outer_completed_snoc, orb_false_r.
        -- intros _ _. now rewrite all_completed_snoc, outer_unsubscribed_snoc, Hun.
      * eapply Owing; [reflexivity|reflexivity|now apply Oq| |discriminate].
        intros r. now rewrite app_one, Hg, Eq.
      * pose proof (@remain_complete q i Hi Hc) as Hm.
        destruct (outer_completed q && (remain q =? 1)) eqn:Z.
        -- apply andb_true_iff in Z. destruct Z as [Z1 Z2]. apply Nat.eqb_eq in Z2.
           apply Completing; [now apply Oq|now apply settled_snoc|now rewrite outer_unsubscribed_snoc, Hun| |].
           ++ split; [now rewrite outer_completed_snoc, Z1|]. rewrite <- remain_zero. lia.
           ++ intros r. rewrite app_one, Hg, Eq. cbn [merged]. rewrite Z1, Z2. reflexivity.
        -- apply Running; [now apply Oq|now apply settled_snoc|now rewrite outer_unsubscribed_snoc, Hun| |].
           ++ intros [Q1 Q2]. rewrite <- remain_zero in Q2. rewrite outer_completed_snoc, orb_false_r in Q1. rewrite Q1 in Z. cbn in Z. apply Nat.eqb_neq in Z. lia.
           ++ intros r. rewrite app_one, Hg, Eq, outer_completed_snoc, orb_false_r. cbn [merged]. rewrite Z.
              replace (remain q - 1) with (remain (q ++ [TIn i Cmp])) by lia. reflexivity.
    + destruct (@open_quiet q (TEnd i)) as [Oq Eq]; [discriminate|]. apply Running; [now apply Oq|now apply settled_snoc|now rewrite outer_unsubscribed_snoc, Hun| |].
      * now rewrite all_completed_snoc.
      * intros r. rewrite app_one, Hg, Eq, remain_quiet, outer_completed_snoc, orb_false_r by auto. reflexivity.
    + (* out of the blue *)
      destruct Hr as (_ & Hr). exfalso.
      assert (Ow : forall p e', q = p ++ [e'] -> owed e' = Some c -> False).
      { intros p e' -> Q. specialize (Hs p e' eq_refl). destruct e' as [|[]| |j []| |]; cbn in *; congruence. }
      destruct c as [a|x| |].
      * destruct Hr as (p & e' & Q1 & Q2). eauto.
      * destruct Hr as (p & e' & Q1 & Q2). eauto.
      * auto.
      * congruence.
  - (* owing *)
    assert (e = TOut c) by (eapply Hd; eauto; eapply prefix_open; eauto). subst e. clear Hd.
    set (q := p ++ [e']) in *. destruct (is_closing c || down (outs q ++ [c])) eqn:Z.
    + apply Ended.
      * rewrite open_out. intros (_ & Q1 & Q2). now rewrite Q1, Q2 in Z.
      * intros r. rewrite app_one, Hg, open_until, outs_snoc by auto. f_equal.
        destruct c as [a|x| |]; try apply until_one. cbn in Z. cbn [until]. now rewrite Z.
    + apply orb_false_iff in Z. destruct Z as [Z1 Z2]. destruct c as [a| | |]; try discriminate. apply Running.
      * rewrite open_out. auto.
      * now apply settled_snoc.
      * rewrite outer_unsubscribed_snoc, orb_false_r. now apply (Hn a).
      * rewrite all_completed_snoc by auto. now apply (Hn a).
      * intros r. rewrite app_one, Hg, outs_snoc, <- app_assoc, remain_quiet, outer_completed_snoc, orb_false_r by auto. reflexivity.
  - (* completing *)
    destruct e as [i|c|i|i c|i|c].
    + destruct Hl as (_ & Hl). tauto.
    + destruct Hl as (_ & Hl & _). tauto.
    + destruct (@open_quiet q (TSub i)) as [Oq Eq]; [discriminate|]. apply Completing; [now apply Oq|now apply settled_snoc|now rewrite outer_unsubscribed_snoc, Hun| |].
      * now rewrite all_completed_snoc.
      * intros r. now rewrite app_one, Hg, Eq.
    + destruct Hl as (Q1 & Q2 & _). destruct Hc as (_ & Hc). rewrite (Hc _ Q2) in Q1. discriminate.
    + destruct (@open_quiet q (TEnd i)) as [Oq Eq]; [discriminate|]. apply Completing; [now apply Oq|now apply settled_snoc|now rewrite outer_unsubscribed_snoc, Hun| |].
      * now rewrite all_completed_snoc.
      * intros r. now rewrite app_one, Hg, Eq.
    + destruct Hr as (_ & Hr).
      assert (Ow : forall p e', q = p ++ [e'] -> owed e' = Some c -> False).
      { intros p e' -> Q. specialize (Hs p e' eq_refl). destruct e' as [|[]| |j []| |]; cbn in *; congruence. }
      destruct c as [a|x| |].
      * destruct Hr as (p & e' & Q1 & Q2). destruct (Ow _ _ Q1 Q2).
      * destruct Hr as (p & e' & Q1 & Q2). destruct (Ow _ _ Q1 Q2).
      * apply Ended; [rewrite open_out; intros (_ & Q & _); discriminate|].
        intros r. rewrite app_one, Hg, open_until, outs_snoc, until_one; auto.
      * congruence.
  - (* ended *) apply Ended.
    + intros Q. apply Ho. eapply prefix_open; eauto.
    + intros r. rewrite app_one, Hg, outs_snoc. destruct e; try (now rewrite app_nil_r). destruct Hr as (Q & _). tauto.
Qed.

Lemma merged_trace q : lawful q -> paid down q -> (open down q -> ~ all_completed q) -> obeys down q ->
  outs q = until down [] (merged 0 false q).
Proof.
  intros H Hp Hn Hob. fold (mg q). rewrite <- (app_nil_r q) at 2. destruct (all_state H) as [Ho Hs Hun Hc Hg|p e c -> Hd Ho Hg _|Ho _ _ Hc _|_ Hg].
  - rewrite Hg, open_until by auto. cbn. now rewrite app_nil_r.
  - exfalso. assert (Op : open down p) by (eapply prefix_open; eauto). destruct (owed e) as [m|] eqn:Q.
    + destruct (Hp p e [] m eq_refl Op Q). discriminate.
    + destruct e as [|[]| |j []| |]; try discriminate. apply Hob; auto. now rewrite outer_unsubscribed_snoc, orb_true_r.
  - destruct (Hn Ho Hc).
  - now rewrite Hg.
Qed.

(** *** One after the other. *)
Definition peace q : Prop := forall c, In (TUp c) q -> c = Cmp.
Definition chain q (fin : bool) (n : nat) (r : nat -> list call) : list call :=
  chained fin (map (fun i => input i q ++ r i) (seq 0 n)).
Lemma input_snoc i q e : input i (q ++ [e]) = input i q ++ match e with TIn j c => if j =? i then [c] else [] | _ => [] end.
Proof. unfold input. rewrite flat_map_app. cbn. now rewrite app_nil_r. Qed.
Definition push e (r : nat -> list call) (i : nat) : list call := match e with TIn j c => if j =? i then c :: r i else r i | _ => r i end.
Lemma chain_snoc q e fin n r : chain (q ++ [e]) fin n r = chain q fin n (push e r).
Proof.
  unfold chain. f_equal. apply map_ext. intros i. rewrite input_snoc, <- app_assoc. f_equal. unfold push. destruct e; auto. now destruct (_ =? _).
Qed.
Inductive cstate q : Prop :=
| CRun k : open down q -> settled q -> (forall i, completed i q = true <-> i < k) -> k <= arrivals q ->
    (forall fin n r, arrivals q <= n -> chain q fin n r = outs q ++ chained fin (map r (seq k (n - k)))) -> cstate q
| COwe k p e c : q = p ++ [e] -> due e = Some c -> open down q -> (forall i, completed i q = true <-> i < k) -> k <= arrivals q -> is_closing c = false ->
    (forall fin n r, arrivals q <= n -> chain q fin n r = outs q ++ c :: chained fin (map r (seq k (n - k)))) -> cstate q
| CErr p e x : q = p ++ [e] -> due e = Some (Err x) -> open down q ->
    (forall fin n r, arrivals q <= n -> chain q fin n r = outs q ++ [Err x]) -> cstate q
| CEnd : ~ open down q -> (forall fin n r, arrivals q <= n -> until down [] (chain q fin n r) = outs q) -> cstate q
| CCmp : ~ open down q -> outer_completed q = true -> (forall r, until down [] (chain q true (arrivals q) r) = outs q) -> cstate q.

Lemma always_pre (good : list ev -> ev -> Prop) q e : always good (q ++ [e]) -> always good q /\ good q e.
Proof. intros H. split; [intros p x s ->; apply (H p x (s ++ [e])); now rewrite <- app_assoc|apply (H q e []); auto]. Qed.

Lemma all_cstate q : lawful q -> always (one_by_one down) q -> peace q -> cstate q.
Proof.
  induction q as [|e q IH] using rev_ind; intros H Hone Hpe.
  { apply (@CRun [] 0); auto using open_nil.
    - intros p x Q. destruct p; discriminate.
    - intros i. split; [discriminate|lia].
    - intros fin n r _. unfold chain. cbn. now rewrite Nat.sub_0_r. }
  apply lawful_snoc in H. destruct H as (H & Hl & Hr & Hd). apply always_pre in Hone. destruct Hone as (Hone & H1).
  assert (Hpe' : peace q) by (intros c Hc; apply Hpe; apply in_or_app; auto). specialize (IH H Hone Hpe').
  assert (Hu : outer_unsubscribed q = false).
  { destruct (outer_unsubscribed q) eqn:Q; auto. unfold outer_unsubscribed in Q. apply existsb_exists in Q. destruct Q as ([|[]| | | |] & Q1 & Q2); try discriminate.
    apply Hpe' in Q1. discriminate. }
  destruct IH as [k Ho Hs Hk Ha Hg|k p e' c -> Hdue Ho Hk Ha Hcl Hg|p e' x -> Hdue Ho Hg|Ho Hg|Ho Hoc Hg].
  - (* running *)
    assert (Quiet : (forall c, e <> TOut c) -> due e = None -> (forall j c, e <> TIn j c) -> cstate (q ++ [e])).
    { intros N1 N2 N3. destruct (@open_quiet q e N1) as [Oq Eq]. apply (@CRun _ k).
      - now apply Oq.
      - now apply settled_snoc.
      - intros i. rewrite completed_snoc, <- Hk. destruct e as [| | |j m| |]; try now rewrite orb_false_r. now destruct (N3 j m).
      - rewrite arrivals_snoc. lia.
      - intros fin n r Hn. rewrite arrivals_snoc in Hn. rewrite chain_snoc, Hg, Eq by lia. f_equal. f_equal. apply map_ext. intros i.
        destruct e; auto. now destruct (N3 i0 c). }
    destruct e as [i|c|i|i c|i|c]; try (apply Quiet; [discriminate|reflexivity|discriminate]).
    + specialize (Hpe c). rewrite Hpe in * by (apply in_or_app; right; now left). apply Quiet; [discriminate|reflexivity|discriminate].
    + clear Quiet. destruct Hl as (Hc & Hi & Hun). specialize (H1 Ho). destruct (@open_quiet q (TIn i c)) as [Oq Eq]; [discriminate|].
      assert (i = k).
      { destruct (Nat.lt_trichotomy i k) as [Q|[Q|Q]]; auto; [apply Hk in Q; congruence|]. apply H1, Hk in Q. lia. }
      subst i. clear H1.
      assert (Cut : forall fin n r, arrivals q <= n -> chain (q ++ [TIn k c]) fin n r = outs q ++ splice (c :: r k) (chained fin (map r (seq (S k) (n - S k))))).
      { intros fin n r Hn. rewrite chain_snoc, Hg by auto. f_equal. replace (n - k) with (S (n - S k)) by lia. cbn [seq map chained]. unfold push at 1. rewrite Nat.eqb_refl.
        f_equal. f_equal. apply map_ext_in. intros j Hj. apply in_seq in Hj. unfold push. replace (k =? j) with false; auto. symmetry. apply Nat.eqb_neq. lia. }
      destruct c as [a|x| |]; [| | |now destruct Hun].
      * apply (@COwe _ k q (TIn k (Nxt a)) (Nxt a)); auto; [now apply Oq| |rewrite arrivals_snoc; lia|].
        -- intros j. rewrite completed_snoc, orb_false_r. auto.
        -- intros fin n r Hn. rewrite arrivals_snoc in Hn. rewrite Cut, Eq by lia. cbn [splice]. f_equal. f_equal.
           replace (n - k) with (S (n - S k)) by lia. reflexivity.
      * apply (@CErr _ q (TIn k (Err x)) x); auto; [now apply Oq|].
        intros fin n r Hn. rewrite arrivals_snoc in Hn. now rewrite Cut, Eq by lia.
      * apply (@CRun _ (S k)); [now apply Oq|now apply settled_snoc| |rewrite arrivals_snoc; lia|].
        -- intros j. rewrite completed_snoc, orb_true_iff, Hk, Nat.eqb_eq. lia.
        -- intros fin n r Hn. rewrite arrivals_snoc in Hn. now rewrite Cut, Eq by lia.
    + destruct Hr as (_ & Hr).
      assert (Ow : forall p e', q = p ++ [e'] -> owed e' = Some c -> False).
      { intros p e' -> Q. specialize (Hs p e' eq_refl). destruct e' as [|[]| |j []| |]; cbn in *; congruence. }
      destruct c as [a|x| |].
      * destruct Hr as (p & e' & Q1 & Q2). destruct (Ow _ _ Q1 Q2).
      * destruct Hr as (p & e' & Q1 & Q2). destruct (Ow _ _ Q1 Q2).
      * destruct Hr as (R1 & R2). apply CCmp; [rewrite open_out; intros (_ & Q & _); discriminate|now rewrite outer_completed_snoc, R1|].
        assert (arrivals q <= k).
        { destruct (Nat.le_gt_cases (arrivals q) k) as [Q|Q]; auto. specialize (R2 k Q). apply Hk in R2. lia. }
        intros r. rewrite arrivals_snoc, chain_snoc, Hg, open_until, outs_snoc by (auto; lia). f_equal.
        replace (arrivals q + 0 - k) with 0 by lia. cbn [seq map chained]. apply until_one.
      * congruence.
  - (* owing *)
    assert (e = TOut c) by (eapply Hd; eauto; eapply prefix_open; eauto). subst e. clear Hd.
    set (q := p ++ [e']) in *. destruct (down (outs q ++ [c])) eqn:Z.
    + apply CEnd; [rewrite open_out; intros (_ & _ & Q); congruence|].
      intros fin n r Hn. rewrite arrivals_snoc in Hn. rewrite chain_snoc, Hg, open_until, outs_snoc by (auto; lia). f_equal. cbn [until]. now rewrite Z.
    + apply (@CRun _ k).
      * rewrite open_out. auto.
      * now apply settled_snoc.
      * intros i. rewrite completed_snoc, orb_false_r. auto.
      * rewrite arrivals_snoc. lia.
      * intros fin n r Hn. rewrite arrivals_snoc in Hn. rewrite chain_snoc, Hg, outs_snoc, <- app_assoc by lia. reflexivity.
  - assert (e = TOut (Err x)) by (eapply Hd; eauto; eapply prefix_open; eauto). subst e. clear Hd.
    set (q := p ++ [e']) in *. apply CEnd; [rewrite open_out; intros (_ & Q & _); discriminate|].
    intros fin n r Hn. rewrite arrivals_snoc in Hn. rewrite chain_snoc, Hg, open_until, outs_snoc by (auto; lia). f_equal. apply until_one.
  - apply CEnd.
    + intros Q. apply Ho. eapply prefix_open; eauto.
    + intros fin n r Hn. rewrite arrivals_snoc in Hn. rewrite chain_snoc, outs_snoc, Hg by lia.
      destruct e as [i|c|i|i c|i|c]; try (now rewrite app_nil_r). destruct Hr; tauto.
  - apply CCmp.
    + intros Q. apply Ho. eapply prefix_open; eauto.
    + now rewrite outer_completed_snoc, Hoc.
    + intros r. rewrite chain_snoc, arrivals_snoc, outs_snoc.
      destruct e as [i|c|i|i c|i|c]; try (destruct Hl; tauto); try (rewrite Nat.add_0_r, app_nil_r; apply Hg).
      destruct Hr; tauto.
Qed.

Lemma chained_trace q fin n : lawful q -> always (one_by_one down) q -> peace q -> paid down q -> (open down q -> ~ all_completed q) ->
  arrivals q <= n -> (open down q \/ outer_completed q = true -> fin = outer_completed q /\ n = arrivals q) ->
  outs q = until down [] (chained fin (map (fun i => input i q) (seq 0 n))).
Proof.
  intros H Hone Hpe Hp Hn Hle Heq.
  assert (Q : map (fun i => input i q) (seq 0 n) = map (fun i => input i q ++ (fun _ => []) i) (seq 0 n)).
  { apply map_ext. intros i. now rewrite app_nil_r. }
  rewrite Q. fold (chain q fin n (fun _ => [])). clear Q.
  assert (Ow : forall p e c, q = p ++ [e] -> due e = Some c -> open down q -> False).
  { intros p e c -> Hd Ho. assert (Op : open down p) by (eapply prefix_open; eauto). destruct (owed e) as [m|] eqn:Q.
    + destruct (Hp p e [] m eq_refl Op Q). discriminate.
    + destruct e as [|[]| |j []| |]; try discriminate. specialize (Hpe Uns). rewrite in_app_iff in Hpe. discriminate Hpe. right. now left. }
  destruct (all_cstate H Hone Hpe) as [k Ho Hs Hk Ha Hg|k p e c -> Hd Ho _ _ _ _|p e x -> Hd Ho _|_ Hg|_ Hoc Hg].
  - destruct (Heq (or_introl Ho)) as [-> ->]. rewrite Hg, open_until by auto. rewrite <- (app_nil_r (outs q)) at 1. f_equal.
    destruct (arrivals q - k) as [|d] eqn:Z; cbn [seq map chained splice]; auto.
    destruct (outer_completed q) eqn:Q; auto. destruct (Hn Ho). split; auto. intros i Hi. apply Hk. lia.
  - destruct (Ow _ _ _ eq_refl Hd Ho).
  - destruct (Ow _ _ _ eq_refl Hd Ho).
  - now rewrite Hg.
  - destruct (Heq (or_intror Hoc)) as [-> ->]. now rewrite Hoc, Hg.
Qed.
End Trace.

(** *** The concurrent subscriber obeys the laws. *)
Section Conc.
Variables A E : Type.
Variable down : list (ncall A E) -> bool.
Variable L : nat.
Hypothesis HL : 1 <= L.
Notation st := (HoModel.st A E).
Notation cmd := (HoModel.cmd A E).
Notation step := (HoModel.step down (Concurrent L)).
Implicit Types (s : st) (K : list cmd).

Record W K s : Prop := {
  v_two : I2 down L K s;
  v_law : always (law down) (s_tr s);
  v_uns : forall p r, s_tr s = p ++ TUp Uns :: r -> open down p -> (exists r', r = TOut Uns :: r') \/ (r = [] /\ tells Uns K)
}.

Lemma step_log c s s' K1 : step c s = Some (s', K1) ->
  s_tr s' = s_tr s /\ (forall m, c = KTell m -> t_shut (s_told s) = true) \/
  exists e, s_tr s' = s_tr s ++ [e] /\ (forall m, c = KTell m -> e = TOut m) /\
    match e with
    | TIn i m => c = KCall i m /\ i_closed (s_inner s i) = false /\ i_sub (s_inner s i) = true
    | TArrive _ | TUp _ => False
    | _ => True
    end.
Proof.
  intros R.
  assert (Un : forall i, (forall m, c <> KTell m) -> do_unsub i s = Some (s', K1) -> s_tr s' = s_tr s /\ (forall m, c = KTell m -> t_shut (s_told s) = true) \/
    exists e, s_tr s' = s_tr s ++ [e] /\ (forall m, c = KTell m -> e = TOut m) /\
    match e with
    | TIn i m => c = KCall i m /\ i_closed (s_inner s i) = false /\ i_sub (s_inner s i) = true
    | TArrive _ | TUp _ => False
    | _ => True
    end).
  { intros i N Hu. unfold do_unsub in Hu. destruct (i_closed (s_inner s i)); [inversion Hu; subst; left; split; auto; intros m Q; now destruct (N m)|].
    destruct (minus_one (s_nu s)); [|discriminate]. destruct (if i_completed _ then _ else _); [|discriminate].
    inversion Hu; subst. right. eexists. split; [reflexivity|]. split; auto. intros m Q. now destruct (N m). }
  destruct c as [m| | | |i l|i m|i|i|i|i|i| |i| |i]; cbn [HoModel.step] in R.
  - destruct (t_shut (s_told s)) eqn:Es; [inversion R; subst; left; auto|]. right. exists (TOut m). inversion R; subst. split; [reflexivity|]. split; auto. now intros x [= ->].
  - destruct (s_torn s); inversion R; subst; left; split; auto; discriminate.
  - inversion R; subst; left; split; auto; discriminate.
  - destruct (s_queue s) as [|[i l] q]; inversion R; subst; left; split; auto; discriminate.
  - inversion R; subst. right. exists (TSub i). split; [reflexivity|]. split; auto. discriminate.
  - destruct (i_closed (s_inner s i)) eqn:Q1; [inversion R; subst; left; split; auto; discriminate|].
    destruct (i_sub (s_inner s i)) eqn:Q2; [|inversion R; subst; left; split; auto; discriminate]. cbn in R.
    right. exists (TIn i m). destruct m as [a|x| |]; [|destruct (set_error _); [|discriminate]| |]; inversion R; subst; (split; [reflexivity|]); (split; [discriminate|auto]).
  - destruct (t_shut _); inversion R; subst; left; split; auto; discriminate.
  - destruct (s_nc s); [discriminate|]. destruct (can_downstream_complete _); [destruct (set_complete _); [|discriminate]|]; inversion R; subst; left; split; auto; discriminate.
  - apply (Un i); easy.
  - destruct (existsb _ _); [inversion R; subst; left; split; auto; discriminate|]. apply (Un i); easy.
  - inversion R; subst; left; split; auto; discriminate.
  - inversion R; subst; left; split; auto; discriminate.
  - destruct (i_closed _); [|destruct (nth_error _ _)]; inversion R; subst; left; split; auto; discriminate.
  - destruct (_ && _); inversion R; subst; left; split; auto; discriminate.
  - inversion R; subst; left; split; auto; discriminate.
Qed.

Lemma step_W c K s s' K1 : W (c :: K) s -> step c s = Some (s', K1) -> W (K1 ++ K) s'.
Proof.
  intros [H Hl Hu] R. assert (H' := step_I2 HL H R). assert (M := j_mir (k_one H)). split; auto.
  - destruct (step_log c s R) as [(-> & _)|(e & -> & _ & He)]; auto. apply always_snoc; auto.
    destruct e as [| | |i m| |]; try exact I; try tauto. destruct He as (-> & Q1 & Q2). cbn. rewrite <- (m_cmp M), <- (m_arr M). split; [|split].
    + destruct (i_completed (s_inner s i)) eqn:Q; auto. destruct (j_comp (k_one H) i Q) as [Z|Z]; [congruence|]. cbn in Z. rewrite Nat.eqb_refl in Z. discriminate.
    + apply (j_sub (k_one H)). auto.
    + intros ->. destruct (k_civil H) as [V _]. cbn in V. discriminate.
  - intros p r Hp Ho. destruct (step_log c s R) as [(Q & N)|(e & Q & N & He)]; rewrite Q in Hp.
    + destruct (Hu p r Hp Ho) as [Z|[-> [K' Z]]]; auto. injection Z as -> _. exfalso. specialize (N _ eq_refl).
      assert (open down (s_tr s)) by (rewrite Hp; now apply open_quiet). apply (m_shut M) in H0. congruence.
    + apply cons_inv_snoc in Hp. destruct Hp as [(-> & Q1 & Q2)|(r' & -> & Hp)]; [subst e; destruct He|].
      destruct (Hu p r' Hp Ho) as [[r0 ->]|[-> [K' Z]]]; left; [cbn; eauto|]. injection Z as -> _. rewrite (N _ eq_refl). cbn. eauto.
Qed.

Lemma perform_W a s s' K : W [] s -> act_ok a = true -> perform (Concurrent L) a s = Some (s', K) -> W K s'.
Proof.
  intros [H Hl Hu] Ha R. assert (H' := perform_I2 HL a H Ha R). assert (M := j_mir (k_one H)).
  assert (Same : s_tr s' = s_tr s -> W K s').
  { intros Q. split; auto; rewrite Q; auto. intros p r Hp Ho. destruct (Hu p r Hp Ho) as [Z|[_ [K' Z]]]; auto. discriminate. }
  assert (Log : forall e, is_torn (Concurrent L) s = false -> s_tr s' = s_tr s ++ [e] -> (forall a, e <> TUp (Nxt a)) ->
    (match e with TArrive _ => True | TUp _ => True | _ => False end) -> (e = TUp Uns -> tells Uns K) -> W K s').
  { intros e Ht Q Q1 Q2 Q3. apply orb_false_iff in Ht. destruct Ht as [Ht _]. assert (Ho := proj1 (m_shut M) Ht).
    destruct (prompt_I2 HL H Ho) as [_ Hc]. split; auto; rewrite Q.
    - apply always_snoc; auto. destruct e as [|c| | | |]; try tauto; [split; auto|]. split; [auto|split; [auto|]]. intros x ->. now destruct (Q1 x).
    - intros p r Hp Hop. apply cons_inv_snoc in Hp. destruct Hp as [(-> & Z1 & Z2)|(r' & -> & Hp)]; [right; auto|].
      destruct (Hu p r' Hp Hop) as [[r0 ->]|[_ [K' Z]]]; [left; cbn; eauto|discriminate]. }
  destruct a as [l|x| | |i c]; cbn [perform] in R.
  - destruct (is_torn (Concurrent L) s) eqn:Et; [inversion R; subst; auto|]. apply (Log (TArrive (s_arrived s))); try easy.
    destruct (_ <? _); inversion R; subst; reflexivity.
  - destruct (is_torn (Concurrent L) s) eqn:Et; [inversion R; subst; auto|]. destruct (set_error _); [|discriminate].
    apply (Log (TUp (Err x))); try easy. inversion R; subst; reflexivity.
  - destruct (is_torn (Concurrent L) s) eqn:Et; [inversion R; subst; auto|]. destruct (set_complete _); [|discriminate]. destruct (set_unsubscribe _); [|discriminate].
    apply (Log (TUp Cmp)); try easy. destruct (can_downstream_complete _); inversion R; subst; reflexivity.
  - destruct (is_torn (Concurrent L) s) eqn:Et; [inversion R; subst; auto|].
    unfold unsubscribe in R. replace (is_torn (Concurrent L) (log s (TUp Uns))) with false in R by (symmetry; exact Et).
    inversion R; subst. apply (Log (TUp Uns)); try easy. intros _. eexists. reflexivity.
  - destruct (_ || _); inversion R; subst; auto.
Qed.

Lemma flatten_W fuel h s : no_uns h = true -> flatten down (Concurrent L) fuel h init = Fine s -> W [] s.
Proof.
  intros Hu R. eapply (@flatten_inv A E down (Concurrent L) (fun a _ => act_ok a = true) W); eauto.
  - apply step_W.
  - intros a s0 s1 K1 H Ho Hp. eapply perform_W; eauto.
  - split; [apply init_I2; auto|apply always_nil|]. intros p r Q. destruct p; discriminate.
  - intros a s0 Ha _. eapply no_uns_ok; eauto.
Qed.
Lemma flatten_lawful fuel h s : no_uns h = true -> flatten down (Concurrent L) fuel h init = Fine s -> lawful down (s_tr s).
Proof.
  intros Hu R. assert (Hw := flatten_W _ _ Hu R). split.
  - apply (v_law Hw).
  - eapply concurrent_relays; eauto.
  - intros p e r c Hp Ho Hd. right. destruct (owed e) as [m|] eqn:Q.
    + assert (m = c) by (destruct e as [|[]| |j []| |]; cbn in *; congruence). subst m. eapply passed_on; eauto.
    + destruct e as [|[]| |j []| |]; try discriminate. injection Hd as <-. destruct (v_uns Hw _ Hp Ho) as [Z|[_ [K' Z]]]; auto. discriminate.
Qed.

Lemma concurrent_merged fuel h s : no_uns h = true -> flatten down (Concurrent L) fuel h init = Fine s ->
  outs (s_tr s) = until down [] (merged 0 false (s_tr s)).
Proof.
  intros Hu R. apply merged_trace.
  - eapply flatten_lawful; eauto.
  - eapply passed_on; eauto.
  - intros Ho. apply (concurrent_prompt HL _ _ Hu R Ho).
  - eapply obeyed; eauto.
Qed.

Lemma peaceful_trace fuel h s : peaceful h = true -> flatten down (Concurrent L) fuel h init = Fine s -> peace (s_tr s).
Proof.
  intros Hp R. eapply (@flatten_inv A E down (Concurrent L) (fun a _ => peaceful [a] = true) (fun _ s => peace (s_tr s))); eauto.
  - intros c K s0 s1 K1 H Q. destruct (step_log c s0 Q) as [(-> & _)|(e & -> & _ & He)]; auto.
    intros m Hm. apply in_app_or in Hm. destruct Hm as [Hm|[->|[]]]; auto. destruct He.
  - intros a s0 s1 K1 H Ha Q.
    assert (Z : s_tr s1 = s_tr s0 \/ exists e, s_tr s1 = s_tr s0 ++ [e] /\ match e with TUp Cmp | TArrive _ => True | _ => False end).
    { destruct a as [l|x| | |i c]; try discriminate; cbn [perform] in Q.
      - destruct (is_torn (Concurrent L) s0); [inversion Q; subst; auto|]. right. exists (TArrive (s_arrived s0)). destruct (_ <? _); inversion Q; subst; auto.
      - destruct (is_torn (Concurrent L) s0); [inversion Q; subst; auto|]. destruct (set_complete _); [|discriminate]. destruct (set_unsubscribe _); [|discriminate].
        right. exists (TUp Cmp). destruct (can_downstream_complete _); inversion Q; subst; auto.
      - destruct (_ || _); inversion Q; subst; auto. }
    destruct Z as [->|(e & -> & Z)]; auto. intros m Hm. apply in_app_or in Hm. destruct Hm as [Hm|[->|[]]]; auto. destruct m; tauto.
  - intros m [].
  - intros a s0 Ha _. unfold peaceful in *. rewrite forallb_forall in Hp. cbn. now rewrite (Hp a Ha).
Qed.

Lemma concurrent_chained fuel h s : L = 1 -> no_uns h = true -> peaceful h = true -> flatten down (Concurrent L) fuel h init = Fine s ->
  outs (s_tr s) = until down [] (chained (outer_completed (s_tr s)) (map (fun i => input i (s_tr s)) (seq 0 (arrivals (s_tr s))))).
Proof.
  intros H1 Hu Hp R. apply chained_trace.
  - eapply flatten_lawful; eauto.
  - eapply concurrent_one_by_one; eauto.
  - eapply peaceful_trace; eauto.
  - eapply passed_on; eauto.
  - intros Ho. apply (concurrent_prompt HL _ _ Hu R Ho).
  - auto.
  - auto.
Qed.

(** *** The observables. *)
Lemma forallb_map' : forall X Y (f : X -> Y) g l, forallb g (map f l) = forallb (fun x => g (f x)) l.
Proof. intros X Y f g l. induction l; cbn; auto. now rewrite IHl. Qed.
Lemma flatten_app fuel : forall h h' s, flatten down (Concurrent L) fuel (h ++ h') s =
  match flatten down (Concurrent L) fuel h s with Fine s1 => flatten down (Concurrent L) fuel h' s1 | r => r end.
Proof.
  induction h as [|a h IH]; intros h' s; cbn [app flatten]; auto. destruct (perform _ a s) as [[s1 K]|]; auto.
  destruct (drive _ _ _ _ _); auto.
Qed.
Lemma drive_same fuel K s s' : drive down (Concurrent L) fuel K s = Fine s' ->
  arrivals (s_tr s') = arrivals (s_tr s) /\ outer_completed (s_tr s') = outer_completed (s_tr s) /\ exists r, s_tr s' = s_tr s ++ r.
Proof.
  intros R. eapply (@drive_inv A E down (Concurrent L) (fun _ x => arrivals (s_tr x) = arrivals (s_tr s) /\
    outer_completed (s_tr x) = outer_completed (s_tr s) /\ exists r, s_tr x = s_tr s ++ r)); [| |exact R].
  - intros c K0 s0 s1 K1 (H1 & H2 & r & H3) Q. destruct (step_log c s0 Q) as [(-> & _)|(e & -> & _ & He)]; [eauto|].
    rewrite arrivals_snoc, outer_completed_snoc, H1, H2. split; [destruct e; try tauto; lia|]. split; [destruct e; try tauto; apply orb_false_r|].
    exists (r ++ [e]). now rewrite H3, app_assoc.
  - repeat split. exists []. now rewrite app_nil_r.
Qed.

(** The run of a part of a history. *)
Lemma one_drive fuel K s s' : match drive down (Concurrent L) fuel K s with Fine s1 => Fine s1 | r => r end = Fine s' -> drive down (Concurrent L) fuel K s = Fine s'.
Proof. destruct (drive _ _ _ _ _); auto. Qed.
Lemma W_more fuel h s s' : no_uns h = true -> W [] s -> flatten down (Concurrent L) fuel h s = Fine s' -> W [] s'.
Proof.
  intros Hu Hw R. eapply (@flatten_inv A E down (Concurrent L) (fun a _ => act_ok a = true) W); eauto.
  - apply step_W.
  - intros a s0 s1 K1 H Ho Hp. eapply perform_W; eauto.
  - intros a s0 Ha _. eapply no_uns_ok; eauto.
Qed.
Lemma torn_open K s : W K s -> open down (s_tr s) -> is_torn (Concurrent L) s = false.
Proof.
  intros Hw Ho. apply (m_shut (j_mir (k_one (v_two Hw)))) in Ho. cbn. rewrite Ho. destruct (s_torn s) eqn:Q; auto.
  apply (j_torn (k_one (v_two Hw))) in Q. unfold shut in Q. congruence.
Qed.
Lemma torn_shut K s : W K s -> is_torn (Concurrent L) s = true -> ~ open down (s_tr s).
Proof. intros Hw Ht Ho. apply (torn_open Hw) in Ho. congruence. Qed.
Lemma run_arrive fuel l s s' : W [] s -> flatten down (Concurrent L) fuel [AArrive l] s = Fine s' ->
  (~ open down (s_tr s) /\ s_tr s' = s_tr s) \/ (open down (s_tr s) /\ exists r, s_tr s' = s_tr s ++ TArrive (arrivals (s_tr s)) :: r /\
    arrivals (s_tr s') = S (arrivals (s_tr s)) /\ outer_completed (s_tr s') = outer_completed (s_tr s)).
Proof.
  intros Hw R. assert (M := j_mir (k_one (v_two Hw))). cbn [flatten perform] in R. destruct (is_torn (Concurrent L) s) eqn:Et.
  - assert (drive down (Concurrent L) fuel [] s = Fine s) by now destruct fuel. rewrite H in R. injection R as <-. left. split; auto. eapply torn_shut; eauto.
  - right. split; [apply (m_shut M); cbn in Et; apply orb_false_iff in Et; tauto|].
    set (s1 := log _ _) in R.
    assert (Z : exists s2 K, s_tr s2 = s_tr s1 /\ drive down (Concurrent L) fuel K s2 = Fine s').
    { destruct (_ <? _); [exists (with_counts s1 (S (s_nc s1)) (S (s_nu s1)))|exists (with_queue s1 (s_queue s1 ++ [(s_arrived s, l)]))];
        eexists; (split; [reflexivity|]); apply one_drive; exact R. }
    destruct Z as (s2 & K & Z1 & Z2). apply drive_same in Z2. destruct Z2 as (D1 & D2 & r & D3). rewrite Z1 in *.
    exists r. rewrite D1, D2, D3. unfold s1. cbn [log with_arrived s_tr]. rewrite (m_arr M), <- app_assoc, arrivals_snoc, outer_completed_snoc, orb_false_r. auto using Nat.add_1_r.
Qed.
Lemma run_complete fuel s s' : W [] s -> flatten down (Concurrent L) fuel [ACmp] s = Fine s' ->
  (~ open down (s_tr s) /\ s_tr s' = s_tr s) \/ (open down (s_tr s) /\ exists r, s_tr s' = s_tr s ++ TUp Cmp :: r /\
    arrivals (s_tr s') = arrivals (s_tr s) /\ outer_completed (s_tr s') = true).
Proof.
  intros Hw R. assert (M := j_mir (k_one (v_two Hw))). cbn [flatten perform] in R. destruct (is_torn (Concurrent L) s) eqn:Et.
  - assert (drive down (Concurrent L) fuel [] s = Fine s) by now destruct fuel. rewrite H in R. injection R as <-. left. split; auto. eapply torn_shut; eauto.
  - right. split; [apply (m_shut M); cbn in Et; apply orb_false_iff in Et; tauto|].
    destruct (set_complete _); [|discriminate]. destruct (set_unsubscribe _) as [u|]; [|discriminate].
    set (s1 := log s (TUp Cmp)) in R.
    assert (Z : exists K, drive down (Concurrent L) fuel K (with_up s1 u) = Fine s').
    { destruct (can_downstream_complete _); eexists; apply one_drive; exact R. }
    destruct Z as (K & Z2). apply drive_same in Z2. destruct Z2 as (D1 & D2 & r & D3).
    exists r. rewrite D1, D2, D3. unfold s1. cbn [log with_up s_tr]. rewrite <- app_assoc, arrivals_snoc, outer_completed_snoc, orb_true_r. auto using Nat.add_0_r.
Qed.
Lemma run_inner fuel i c s s' : W [] s -> flatten down (Concurrent L) fuel [AInner i c] s = Fine s' ->
  (active i (s_tr s) = false /\ s_tr s' = s_tr s) \/ (active i (s_tr s) = true /\ exists r, s_tr s' = s_tr s ++ TIn i c :: r /\
    arrivals (s_tr s') = arrivals (s_tr s) /\ outer_completed (s_tr s') = outer_completed (s_tr s)).
Proof.
  intros Hw R. assert (M := j_mir (k_one (v_two Hw))).
  assert (Ea : active i (s_tr s) = i_sub (s_inner s i) && negb (i_closed (s_inner s i))).
  { unfold active. rewrite <- (m_sub M), <- (m_cmp M), <- (m_end M). destruct (i_sub _); auto. cbn. destruct (i_completed (s_inner s i)) eqn:Q; auto.
    destruct (j_comp (k_one (v_two Hw)) i Q) as [-> |Z]; auto. discriminate. }
  rewrite Ea. cbn [flatten perform] in R. destruct (i_closed (s_inner s i)) eqn:Q1; [|destruct (i_sub (s_inner s i)) eqn:Q2]; cbn [orb negb] in R.
  - assert (drive down (Concurrent L) fuel [] s = Fine s) by now destruct fuel. rewrite H in R. injection R as <-. left. now rewrite andb_false_r.
  - right. split; auto. destruct (drive _ _ _ _ _) as [s0| |] eqn:D in R; try discriminate. injection R as ->.
    destruct fuel as [|n]; [discriminate|]. cbn [drive] in D. destruct (HoModel.step _ _ (KCall i c) _) as [[s2 K2]|] eqn:Es in D; [|discriminate].
    assert (Z : s_tr s2 = s_tr s ++ [TIn i c]).
    { cbn [HoModel.step s_inner with_busy] in Es. rewrite Q1, Q2 in Es. cbn in Es. destruct c; [|destruct (set_error _); [|discriminate]| |]; inversion Es; subst; reflexivity. }
    apply drive_same in D. destruct D as (D1 & D2 & r & D3). exists r. rewrite D1, D2, D3, Z, <- app_assoc, arrivals_snoc, outer_completed_snoc, Nat.add_0_r, orb_false_r. auto.
  - assert (drive down (Concurrent L) fuel [] s = Fine s) by now destruct fuel. rewrite H in R. injection R as <-. left. auto.
Qed.

Lemma prefix_shut q r : ~ open down q -> ~ open down (q ++ r).
Proof. intros H. induction r as [|e r IH] using rev_ind; [now rewrite app_nil_r|]. rewrite app_assoc. intros Q. apply IH. eapply prefix_open; eauto. Qed.
Lemma init_W : W [] init.
Proof. split; [apply init_I2; auto|apply always_nil|]. intros p r Q. destruct p; discriminate. Qed.
Lemma flatten_step fuel a h s s' : flatten down (Concurrent L) fuel (a :: h) s = Fine s' ->
  exists s1, flatten down (Concurrent L) fuel [a] s = Fine s1 /\ flatten down (Concurrent L) fuel h s1 = Fine s'.
Proof. intros R. change (a :: h) with ([a] ++ h) in R. rewrite flatten_app in R. destruct (flatten _ _ _ [a] s) as [s1| |]; try discriminate. eauto. Qed.

Lemma arrive_all fuel : forall ls s s', completes ls = true -> W [] s -> outer_completed (s_tr s) = false -> flatten down (Concurrent L) fuel (map (@AArrive A E) ls) s = Fine s' ->
  W [] s' /\ outer_completed (s_tr s') = false /\ arrivals (s_tr s') <= arrivals (s_tr s) + length ls /\
  (open down (s_tr s') -> arrivals (s_tr s') = arrivals (s_tr s) + length ls) /\ (~ open down (s_tr s) -> ~ open down (s_tr s')).
Proof.
  induction ls as [|l ls IH]; intros s s' Hc Hw Ho R.
  - injection R as <-. cbn. split; [auto|]. split; [auto|]. split; [lia|]. split; [lia|auto].
  - cbn in Hc. apply andb_true_iff in Hc. destruct Hc as [Hc1 Hc2]. cbn [map] in R. apply flatten_step in R. destruct R as (s1 & R1 & R2).
    assert (W1 : W [] s1) by (eapply W_more; [|exact Hw|exact R1]; cbn; now rewrite Hc1).
    destruct (run_arrive _ _ Hw R1) as [(Q1 & Q2)|(Q1 & r & Q2 & Q3 & Q4)].
    + destruct (IH s1 s' Hc2 W1) as (H1 & H2 & H3 & H4 & H5); [congruence|auto|]. rewrite Q2 in *. cbn [length]. split; [auto|]. split; [auto|]. split; [lia|]. split; [|auto]. intros Q. destruct (H5 Q1 Q).
    + destruct (IH s1 s' Hc2 W1) as (H1 & H2 & H3 & H4 & H5); [congruence|auto|]. cbn [length]. split; [auto|]. split; [auto|]. split; [lia|]. split; [intros Q; specialize (H4 Q); lia|]. intros Q. tauto.
Qed.
Lemma later_all fuel : forall h s s', later h = true -> W [] s -> flatten down (Concurrent L) fuel h s = Fine s' ->
  arrivals (s_tr s') = arrivals (s_tr s) /\ outer_completed (s_tr s') = outer_completed (s_tr s) /\ (~ open down (s_tr s) -> ~ open down (s_tr s')).
Proof.
  induction h as [|a h IH]; intros s s' Hl Hw R; [injection R as <-; auto|].
  cbn in Hl. apply andb_true_iff in Hl. destruct Hl as [Hl1 Hl2]. apply flatten_step in R. destruct R as (s1 & R1 & R2). destruct a as [| | | |i c]; try discriminate.
  assert (W1 : W [] s1) by (eapply W_more; [|exact Hw|exact R1]; cbn; now rewrite Hl1).
  destruct (IH s1 s' Hl2 W1 R2) as (H1 & H2 & H3).
  destruct (run_inner _ _ _ Hw R1) as [(Q1 & Q2)|(Q1 & r & Q2 & Q3 & Q4)]; [now rewrite Q2 in *|].
  rewrite H1, H2. split; [auto|]. split; [auto|]. intros Q. apply H3. rewrite Q2. now apply prefix_shut.
Qed.
Lemma fixed_no_uns (ls : list (list (ncall A E))) h : completes ls = true -> later h = true -> no_uns (fixed ls ++ h) = true.
Proof.
  intros H1 H2. unfold no_uns, fixed. rewrite !forallb_app, forallb_map'. cbn. rewrite andb_true_r, andb_true_iff. split; auto.
  revert H2. unfold later. rewrite !forallb_forall. intros Q x Hx. specialize (Q x Hx). destruct x; auto; discriminate.
Qed.
Lemma fixed_peaceful (ls : list (list (ncall A E))) h : later h = true -> peaceful (@fixed A E ls ++ h) = true.
Proof.
  intros H2. unfold peaceful, fixed. rewrite !forallb_app, forallb_map'. cbn. rewrite andb_true_r, andb_true_iff. split; [apply forallb_forall; auto|].
  revert H2. unfold later. rewrite !forallb_forall. intros Q x Hx. specialize (Q x Hx). destruct x; auto; discriminate.
Qed.
Lemma fixed_chained fuel ls h s : L = 1 -> completes ls = true -> later h = true -> flatten down (Concurrent L) fuel (fixed ls ++ h) init = Fine s ->
  outs (s_tr s) = until down [] (chained true (map (fun i => input i (s_tr s)) (seq 0 (length ls)))).
Proof.
  intros H1 Hc Hl R. assert (Hu := fixed_no_uns _ _ Hc Hl).
  assert (Z : arrivals (s_tr s) <= length ls /\ (open down (s_tr s) \/ outer_completed (s_tr s) = true -> outer_completed (s_tr s) = true /\ arrivals (s_tr s) = length ls)).
  { unfold fixed in R. rewrite <- app_assoc, flatten_app in R. destruct (flatten _ _ _ (map _ ls) init) as [s1| |] eqn:R1 in R; try discriminate.
    apply flatten_step in R. destruct R as (s2 & R2 & R3).
    destruct (arrive_all _ _ Hc init_W eq_refl R1) as (W1 & A1 & A2 & A3 & _). cbn [init s_tr] in *. change (arrivals []) with 0 in *. cbn [Nat.add] in *.
    assert (W2 : W [] s2) by (eapply W_more; [|exact W1|exact R2]; reflexivity).
    destruct (later_all _ _ Hl W2 R3) as (D1 & D2 & D3). rewrite D1, D2. destruct (run_complete _ W1 R2) as [(Q1 & Q2)|(Q1 & r & Q2 & Q3 & Q4)].
    - rewrite Q2 in *. split; auto. intros [Q|Q]; [destruct (D3 Q1 Q)|congruence].
    - rewrite Q3, Q4. auto. }
  destruct Z as [Z1 Z2]. apply chained_trace; auto.
  - eapply flatten_lawful; eauto.
  - eapply concurrent_one_by_one; eauto.
  - eapply peaceful_trace; [|exact R]. now apply fixed_peaceful.
  - eapply passed_on; eauto.
  - intros Ho. apply (concurrent_prompt HL _ _ Hu R Ho).
  - intros Q. destruct (Z2 Q) as [-> ->]. auto.
Qed.

(** Who is heard. *)
Lemma heard_arrive fuel h l s s' : no_uns h = true -> flatten down (Concurrent L) fuel h init = Fine s -> flatten down (Concurrent L) fuel (h ++ [AArrive l]) init = Fine s' ->
  (~ open down (s_tr s) /\ s_tr s' = s_tr s) \/ (open down (s_tr s) /\ exists r, s_tr s' = s_tr s ++ TArrive (arrivals (s_tr s)) :: r).
Proof.
  intros Hu R R'. rewrite flatten_app, R in R'. destruct (run_arrive _ _ (flatten_W _ _ Hu R) R') as [Q|(Q1 & r & Q2 & _)]; [left; auto|right; eauto].
Qed.
Lemma heard_inner fuel h i c s s' : no_uns h = true -> flatten down (Concurrent L) fuel h init = Fine s -> flatten down (Concurrent L) fuel (h ++ [AInner i c]) init = Fine s' ->
  (active i (s_tr s) = false /\ s_tr s' = s_tr s) \/ (active i (s_tr s) = true /\ exists r, s_tr s' = s_tr s ++ TIn i c :: r).
Proof.
  intros Hu R R'. rewrite flatten_app, R in R'. destruct (run_inner _ _ _ (flatten_W _ _ Hu R) R') as [Q|(Q1 & r & Q2 & _)]; [left; auto|right; eauto].
Qed.
End Conc.
