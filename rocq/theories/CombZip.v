(** Proofs about zip. *)
From Coq Require Import NArith.
From Verif Require Import Base SubscrModel LifeModel LifeProofs CombModel CombSpec CombProofs.
Set Implicit Arguments.

Ltac ends H := match type of H with
  | exists _, _ => destruct H as [? H]; ends H
  | _ \/ _ => destruct H as [H|H]; ends H
  | _ => idtac
  end.

Section OneQueue.
Variables A E : Type.
Implicit Types (q : nqueue A E) (l : list A) (tl : list (ncall A E)).

Lemma others_snoc : forall (k : list (ncall A E)) n, others (k ++ [n]) = others k ++ match n with Nxt _ => [] | _ => [n] end.
Proof. induction k as [|[] k IH]; intros n; simpl; auto; now rewrite IH. Qed.
Lemma completed_others : forall (k : list (ncall A E)), completed (others k) = completed k.
Proof. induction k as [|[] k IH]; simpl; auto. Qed.
Lemma completed_uns : forall n, completed (repeat (@Uns A E) n) = false.
Proof. induction n; simpl; auto. Qed.

Lemma QI_facts : forall q l tl c g, QI q l tl c g false ->
  has_next q = negb (none l) /\ nq_is_empty q = none l && negb c /\
  is_completed (nq_state q) = none l && completed tl /\ is_closed (nq_state q) = none l && c.
Proof.
  intros q l tl c g [Hq Hl Hs (w & p & Hst & Hp)]. unfold has_next, nq_is_empty. rewrite Hq, Hst. autorewrite with bits.
  destruct l as [|a l]; cbn [none negb andb map app]; [|repeat split; reflexivity].
  assert (R : forall n, existsb (@is_next A E) (repeat Uns n) = false) by (induction n; simpl; auto).
  destruct c, g; simpl in Hs; try contradiction; ends Hs; subst tl; cbn; rewrite ?R; auto. pose proof (completed_uns x) as Hx. unfold completed in Hx. rewrite Hx. auto.
Qed.
Lemma QI_take : forall q l tl c g e, QI q l tl c g e -> QI (snd (nq_take_error q)) l tl c g e.
Proof. intros q l tl c g e [Hq Hl Hs Hst]. split; auto. Qed.
Lemma enqueue_some : forall max o (a : A) l, 0 < max -> length l <= max -> none (enqueue max o a l) = false.
Proof.
  intros max o a l Hm Hl. assert (H : length (enqueue max o a l) <> 0).
  { destruct o; simpl; [rewrite skipn_length|rewrite firstn_length]; rewrite app_length; simpl; lia. }
  destruct (enqueue max o a l); auto. now contradict H.
Qed.
Lemma contract_one : forall (c : bool) g (n : ncall A E), (n = Uns \/ c = false) -> contract c g [n].
Proof. intros c g n [H|H]; subst; [|destruct n]; simpl; auto. Qed.
End OneQueue.

Section Zip.
Variables A1 A2 E : Type.
Variable max : nat.
Variable o : overflow.
Hypothesis pos : 0 < max.
Notation event := (either2 A1 A2 E).
Notation qst := (nqueue A1 E * nqueue A2 E)%type.
Notation on1 := (@on1 A1 A2 E).
Notation on2 := (@on2 A1 A2 E).

(** A queue after the calls [k], with the values [l] left. *)
Definition side A (q : nqueue A E) (l : list A) (k : list (ncall A E)) : Prop :=
  QI q l (others k) (ended k) (unsubbed k) false /\ nq_error q = None /\ nq_max q = max /\ nq_over q = o /\ errored k = false.

Lemma side_push : forall A (q : nqueue A E) l k n, side q l k -> (n = Uns \/ ended k = false) -> (forall x, n <> Err x) ->
  exists q', nq_push n q = Some q' /\ side q' (match n with Nxt a => enqueue max o a l | _ => l end) (k ++ [n]).
Proof.
  intros A q l k n (HQ & He & Hm & Ho & Hk) Hn Hx.
  destruct (push_step n HQ ltac:(lia) (contract_one _ Hn)) as (q' & H1 & H2 & H3 & H4 & H5). exists q'. split; auto.
  unfold side. rewrite others_snoc, ended_snoc, unsubbed_snoc, errored_snoc, Hk. rewrite Hm, Ho in H5.
  destruct n as [a|x| | ]; [| now elim (Hx x)| | ]; rewrite ?app_nil_r, ?orb_true_r, ?orb_false_r in *; repeat split; try congruence; apply H5.
Qed.
Lemma side_take : forall A (q : nqueue A E) l k, side q l k -> nq_take_error q = (None, snd (nq_take_error q)) /\ side (snd (nq_take_error q)) l k.
Proof.
  intros A q l k (HQ & He & Hm & Ho & Hk). split; [unfold nq_take_error; cbn; now rewrite He|]. repeat split; auto; apply HQ.
Qed.
Lemma side_pop : forall A (q : nqueue A E) l k, side q l k ->
  exists q', nq_pop q = Some (hd_error l, q') /\ side q' (tl l) k.
Proof.
  intros A q l k (HQ & He & Hm & Ho & Hk). destruct (pop_step HQ) as (q' & H1 & H2 & H3 & H4 & H5). exists q'. split; auto. repeat split; try congruence; apply H5.
Qed.

(** The state while the destination is open. *)
Definition ZI (p : list event) (s : qst) : Prop :=
  side (fst s) (fst (unpaired max o p)) (on1 p) /\ side (snd s) (snd (unpaired max o p)) (on2 p) /\
  none (fst (unpaired max o p)) || none (snd (unpaired max o p)) = true /\
  none (fst (unpaired max o p)) && none (snd (unpaired max o p)) && (ended (on1 p) || ended (on2 p)) = false.
(** And when it is not. *)
Definition wside A (q : nqueue A E) (k : list (ncall A E)) : Prop := exists l t c g e,
  QI q l t c g e /\ nq_error q = None /\ nq_max q = max /\ (ended k = false -> c = false).
Definition ZW (p : list event) (s : qst) : Prop := wside (fst s) (on1 p) /\ wside (snd s) (on2 p).
Lemma wside_skip : forall A (q : nqueue A E) k k', wside q k -> wside q (k ++ k').
Proof.
  intros A q k k' (l & t & c & g & e & H1 & H2 & H3 & H4). exists l, t, c, g, e. repeat (split; [assumption|]).
  unfold ended in *. rewrite existsb_app. intros H; apply orb_false_elim in H; intuition.
Qed.
Lemma ZW_skip : forall p s e, ZW p s -> ZW (p ++ [e]) s.
Proof. intros p s e [H1 H2]. unfold ZW. rewrite on1_snoc, on2_snoc. split; now apply wside_skip. Qed.
Lemma wside_of : forall A (q : nqueue A E) l k, side q l k -> wside q k.
Proof. intros A q l k (H1 & E1 & M1 & O1 & K1). do 5 eexists. split; [exact H1|]. auto. Qed.
Lemma wside_push : forall A (q : nqueue A E) k n, wside q k -> (n = Uns \/ ended k = false) ->
  exists q', nq_push n q = Some q' /\ nq_error q' = (match n with Err x => Some x | _ => None end) /\
    wside (snd (nq_take_error q')) (k ++ [n]).
Proof.
  intros A q k n (l & t & c & g & e & H1 & H2 & H3 & H4) Hn.
  assert (Hc : contract c g [n]) by (apply contract_one; destruct Hn; auto).
  destruct (push_step n H1 ltac:(lia) Hc) as (q' & Hq & M & O & X & Q). exists q'. split; auto. split; [destruct n; congruence|].
  do 5 eexists. split; [apply QI_take; exact Q|]. cbn. split; auto. split; [congruence|]. rewrite ended_snoc. intros H; apply orb_false_elim in H. destruct H as [H H']. destruct n; auto; discriminate.
Qed.
Lemma wside_take : forall A (q : nqueue A E) k, wside q k -> nq_error q = None /\ wside (snd (nq_take_error q)) k.
Proof. intros A q k (l & t & c & g & e & H1 & H2 & H3 & H4). split; auto. do 5 eexists. split; [apply QI_take; exact H1|]. auto. Qed.
Lemma zip_take : forall (a : nqueue A1 E) (b : nqueue A2 E), zip_take_error (a, b) =
  match nq_error a with
  | Some x => (Some x, (snd (nq_take_error a), b))
  | None => (nq_error b, (snd (nq_take_error a), snd (nq_take_error b)))
  end.
Proof. intros a b. unfold zip_take_error. simpl. destruct (nq_error a); reflexivity. Qed.

Lemma zip_shut : forall down (p : list event) (s : qst) w e, ZW p s -> t_shut w = true -> ok p e ->
  exists s', zip_next down e s w = Some (s', match error_in e with Some x => tell down (Err x) w | None => w end) /\ ZW (p ++ [e]) s'.
Proof.
  intros down p [a b] w e [H1 H2] Hw Hok. cbn [fst snd] in *. unfold zip_next. rewrite Hw, andb_false_r.
  destruct (wside_take H1) as [X1 Y1]. destruct (wside_take H2) as [X2 Y2].
  assert (D : forall x, x = match error_in e with Some x => tell down (Err x) w | None => w end -> x = match error_in e with Some x => tell down (Err x) w | None => w end) by auto.
  destruct e as [n|n]; cbn [zip_pushed fst snd].
  - destruct (wside_push H1 Hok) as (a' & -> & Z1 & Z2). rewrite zip_take, Z1, X2.
    destruct n as [v|x| | ]; cbn [error_in]; eexists; (split; [rewrite ?Hw; cbn [negb andb]; rewrite ?Hw; reflexivity|]);
      unfold ZW; rewrite on1_snoc, on2_snoc, app_nil_r; split; auto.
  - destruct (wside_push H2 Hok) as (b' & -> & Z1 & Z2). rewrite zip_take, Z1, X1.
    destruct n as [v|x| | ]; cbn [error_in]; eexists; (split; [rewrite ?Hw; cbn [negb andb]; rewrite ?Hw; reflexivity|]);
      unfold ZW; rewrite on1_snoc, on2_snoc, app_nil_r; split; auto.
Qed.

Lemma side_facts : forall A (q : nqueue A E) l k, side q l k ->
  has_next q = negb (none l) /\ nq_is_empty q = none l && negb (ended k) /\
  is_completed (nq_state q) = none l && completed k /\ is_closed (nq_state q) = none l && ended k.
Proof. intros A q l k (HQ & _). destruct (QI_facts HQ) as (F1 & F2 & F3 & F4). rewrite completed_others in F3. auto. Qed.
Lemma completed_ended : forall A (k : list (ncall A E)), ended k = false -> completed k = false.
Proof. intros A k H. rewrite ended_split in H. apply orb_false_elim in H. destruct H as [_ H]. now apply orb_false_elim in H. Qed.
Lemma side_len : forall A (q : nqueue A E) l k, side q l k -> length l <= max.
Proof. intros A q l k (HQ & _ & Hm & _). pose proof (qi_len HQ). lia. Qed.

Lemma ends_facts : forall (a : nqueue A1 E) (b : nqueue A2 E) l1 l2 k1 k2, side a l1 k1 -> side b l2 k2 ->
  zip_ends is_completed (a, b) = none l1 && none l2 && (completed k1 && completed k2 || completed k1 && negb (ended k2) || negb (ended k1) && completed k2) /\
  zip_ends is_closed (a, b) = none l1 && none l2 && (ended k1 && ended k2 || ended k1 && negb (ended k2) || negb (ended k1) && ended k2).
Proof.
  intros a b l1 l2 k1 k2 H1 H2. destruct (side_facts H1) as (F1 & F2 & F3 & F4). destruct (side_facts H2) as (G1 & G2 & G3 & G4).
  unfold zip_ends. cbn [fst snd]. rewrite F2, F3, F4, G2, G3, G4.
  destruct (none l1), (none l2), (completed k1), (completed k2), (ended k1), (ended k2); auto.
Qed.

(** What is told at the end of a step. *)
Definition zend {A A'} down (l1 : list A) (l2 : list A') (k1 : list (ncall A E)) (k2 : list (ncall A' E)) (w : told (A1 * A2) E) : told (A1 * A2) E :=
  if t_shut w || negb (none l1 && none l2) then w else
  if completed k1 && completed k2 || completed k1 && negb (ended k2) || negb (ended k1) && completed k2 then tell down Cmp w
  else if ended k1 || ended k2 then tell down Uns w else w.
Lemma finish : forall down (a : nqueue A1 E) (b : nqueue A2 E) l1 l2 k1 k2 w, side a l1 k1 -> side b l2 k2 ->
  (let w4 := if negb (t_shut w) && zip_ends is_completed (a, b) then tell down Cmp w else w in
   if negb (t_shut w4) && zip_ends is_closed (a, b) then tell down Uns w4 else w4) = zend down l1 l2 k1 k2 w.
Proof.
  intros down a b l1 l2 k1 k2 w H1 H2. destruct (ends_facts H1 H2) as (-> & ->). unfold zend. cbn zeta.
  destruct (t_shut w) eqn:Hw; cbn [negb andb orb]; rewrite ?Hw; cbn [negb andb]; auto.
  destruct (none l1 && none l2); cbn [negb andb]; rewrite ?Hw; cbn [negb andb]; auto.
  destruct (completed k1 && completed k2 || completed k1 && negb (ended k2) || negb (ended k1) && completed k2).
  - cbn. rewrite orb_true_r. reflexivity.
  - rewrite Hw. cbn [negb andb]. destruct (ended k1), (ended k2); auto.
Qed.

Lemma unpaired_snoc : forall (p : list event) e, unpaired max o (p ++ [e]) = unpaired_step max o (unpaired max o p) e.
Proof. intros. unfold unpaired. now rewrite fold_left_app. Qed.

Lemma quiet1 : forall (l1 : list A1) (l2 : list A2) (n : ncall A1 E), none l1 || none l2 = true -> is_next n = false ->
  unpaired_step max o (l1, l2) (On1 n) = (l1, l2).
Proof. intros [|x l1] [|y l2] [v|x'| | ] H H'; try discriminate; reflexivity. Qed.
Lemma quiet2 : forall (l1 : list A1) (l2 : list A2) (n : ncall A2 E), none l1 || none l2 = true -> is_next n = false ->
  unpaired_step max o (l1, l2) (On2 n) = (l1, l2).
Proof. intros [|x l1] [|y l2] [v|x'| | ] H H'; try discriminate; reflexivity. Qed.

Lemma zip_open : forall down (p : list event) (s : qst) w e,
  ZI p s -> t_shut w = false -> ok p e -> lawful (p ++ [e]) ->
  exists s', zip_next down e s w = Some (s', fold_left (give down true) (zipq_answer max o p e) w) /\
    (t_shut (fold_left (give down true) (zipq_answer max o p e) w) = false -> ZI (p ++ [e]) s') /\ ZW (p ++ [e]) s'.
Proof.
  intros down p [a b] w e (H1 & H2 & HN & HL) Hw Hok _. cbn [fst snd] in *.
  assert (G : forall c, give down true w c = tell down c w) by (intros; unfold give; now rewrite Hw).
  unfold ZI, ZW. rewrite !unpaired_snoc. unfold zipq_answer. destruct (unpaired max o p) as [l1 l2]. cbn [fst snd] in *.
  pose proof (side_len H1) as M1. pose proof (side_len H2) as M2.
  destruct (error_in e) as [x|] eqn:He.
  - destruct (wside_take (wside_of H1)) as [X1 Y1]. destruct (wside_take (wside_of H2)) as [X2 Y2]. unfold zip_next.
    destruct e as [[v|y| | ]|[v|y| | ]]; try discriminate He; injection He as ->; cbn [zip_pushed fst snd].
    + destruct (wside_push (wside_of H1) Hok) as (a' & -> & Z1 & Z2). rewrite zip_take, Z1. cbn [zip_ends_by fold_left]. rewrite G.
      eexists. split; [reflexivity|]. split; [cbn; rewrite Hw; discriminate|]. rewrite on1_snoc, on2_snoc, app_nil_r. split; auto. eapply wside_of; eauto.
    + destruct (wside_push (wside_of H2) Hok) as (b' & -> & Z1 & Z2). rewrite zip_take, X1, Z1. cbn [zip_ends_by fold_left]. rewrite G.
      eexists. split; [reflexivity|]. split; [cbn; rewrite Hw; discriminate|]. rewrite on1_snoc, on2_snoc, app_nil_r. split; auto.
  - unfold zip_next. destruct e as [n|n]; cbn [zip_pushed fst snd]; simpl in Hok; rewrite on1_snoc, on2_snoc, ?app_nil_r.
    + destruct (side_push H1 Hok ltac:(intros x ->; discriminate He)) as (a' & -> & S1). rewrite zip_take.
      destruct (side_take S1) as [T1 S1']. destruct (side_take H2) as [T2 S2']. clear H1 H2.
      unfold nq_take_error in T1, T2. injection T1 as T1. injection T2 as T2. rewrite T1, T2.
      destruct n as [v|x| | ]; [| discriminate He | | ]; cbn [was_next is_next andb].
      * rewrite Hw. cbn [negb]. destruct Hok as [Hok|Hok]; [discriminate|]. unfold zip_get_next. cbn [fst snd].
        destruct (side_facts S1') as (-> & _). destruct (side_facts S2') as (-> & _). rewrite (enqueue_some o v l1 pos M1). cbn [negb orb].
        destruct l2 as [|y l2]; cbn [none negb orb].
        -- pose proof (enqueue_some o v l1 pos M1) as K. 
           assert (F : zend down (enqueue max o v l1) (@nil A2) (on1 p ++ [Nxt v]) (on2 p) w = w) by (unfold zend; rewrite Hw, K; reflexivity).
           eexists. split; [f_equal; f_equal; etransitivity; [exact (finish down w S1' S2')|exact F]|]. cbn [fold_left].
           unfold unpaired_step. cbn [fst snd]. destruct (enqueue max o v l1) as [|z l]; [discriminate|].
           split; [|split; eapply wside_of; eauto]. intros _. repeat (split; auto).
        -- cbn [none] in HN. rewrite orb_false_r in HN. destruct l1; [|discriminate]. clear HN HL.
           unfold unpaired_step. cbn [fst snd]. rewrite (@enqueue_room _ max o v []) in * by (simpl; lia). cbn [app] in *.
           destruct (side_pop S1') as (a2 & -> & P1). destruct (side_pop S2') as (b2 & -> & P2). cbn [hd_error tl opt_pair] in *.
           assert (F : zend down (@nil A1) l2 (on1 p ++ [Nxt v]) (on2 p) (tell down (Nxt (v, y)) w) =
             fold_left (give down true) (Nxt (v, y) :: (if none l2 then zip_end_of (A1 * A2) (on2 p) else [])) w).
           { cbn [fold_left]. rewrite G. unfold zend. rewrite ended_snoc, completed_snoc, Hok, (completed_ended _ Hok). cbn [none andb orb negb].
             set (w2 := tell down (Nxt (v, y)) w). unfold zip_end_of.
             destruct (none l2); cbn [negb]; rewrite ?orb_true_r, ?orb_false_r; auto.
             destruct (completed (on2 p)), (ended (on2 p)), (t_shut w2) eqn:Hw2; cbn [fold_left]; unfold give; rewrite ?Hw2; auto. }
           eexists. split; [f_equal; f_equal; etransitivity; [exact (finish down _ P1 P2)|exact F]|].
           rewrite <- F. split; [|split; eapply wside_of; eauto]. intros Hs. split; auto. split; auto. split; auto. cbn [fst snd none andb].
           rewrite ended_snoc, Hok. cbn [orb]. destruct (none l2) eqn:HN; auto. cbn [andb].
           destruct (ended (on2 p)) eqn:HE2; auto. exfalso. revert Hs. unfold zend. rewrite HN. cbn [none andb negb]. rewrite orb_false_r.
           destruct (t_shut (tell down (Nxt (v, y)) w)) eqn:Hs2; [congruence|]. rewrite HE2, orb_true_r. destruct (_ || _); cbn; rewrite orb_true_r; discriminate.
      * destruct Hok as [Hok|Hok]; [discriminate|]. 
        assert (F : zend down l1 l2 (on1 p ++ [Cmp]) (on2 p) w = fold_left (give down true) (zip_ends_by (A1 * A2) (negb (none l1 && none l2)) (on1 p) Cmp) w).
        { unfold zend. rewrite Hw, ended_snoc, completed_snoc. cbn [zip_ends_by orb]. rewrite !orb_true_r. destruct (none l1 && none l2) eqn:HB; cbn [negb]; auto.
          cbn [andb] in HL. rewrite Hok in HL. cbn [orb] in HL. rewrite HL, (completed_ended _ HL). cbn. rewrite G. reflexivity. }
        eexists. split; [f_equal; f_equal; etransitivity; [exact (finish down w S1' S2')|exact F]|]. rewrite <- F.
        split; [|split; eapply wside_of; eauto]. intros Hs. rewrite quiet1 by auto. cbn [fst snd]. split; auto. split; auto. split; auto.
        destruct (none l1 && none l2) eqn:HB; auto. exfalso. cbn [andb] in HL. rewrite Hok in HL. cbn [orb] in HL.
        revert Hs. rewrite F. cbn. unfold give. rewrite Hw. cbn. rewrite orb_true_r. discriminate.
      * assert (F : zend down l1 l2 (on1 p ++ [Uns]) (on2 p) w = fold_left (give down true) (zip_ends_by (A1 * A2) (negb (none l1 && none l2)) (on1 p) Uns) w).
        { unfold zend. rewrite Hw, ended_snoc, completed_snoc. cbn [zip_ends_by orb]. rewrite !orb_true_r. destruct (none l1 && none l2) eqn:HB; cbn [negb]; rewrite ?orb_true_r; auto.
          cbn [andb] in HL. apply orb_false_elim in HL. destruct HL as [L1 L2]. rewrite L1, (completed_ended _ L1), (completed_ended _ L2). cbn. rewrite G. reflexivity. }
        eexists. split; [f_equal; f_equal; etransitivity; [exact (finish down w S1' S2')|exact F]|]. rewrite <- F.
        split; [|split; eapply wside_of; eauto]. intros Hs. rewrite quiet1 by auto. cbn [fst snd]. split; auto. split; auto. split; auto.
        destruct (none l1 && none l2) eqn:HB; auto. exfalso. cbn [andb] in HL. apply orb_false_elim in HL. destruct HL as [L1 L2].
        revert Hs. rewrite F. cbn. rewrite L1. cbn. unfold give. rewrite Hw. cbn. rewrite orb_true_r. discriminate.
    + destruct (side_push H2 Hok ltac:(intros x ->; discriminate He)) as (b' & -> & S2). rewrite zip_take.
      destruct (side_take S2) as [T2 S2']. destruct (side_take H1) as [T1 S1']. clear H1 H2.
      unfold nq_take_error in T1, T2. injection T1 as T1. injection T2 as T2. rewrite T1, T2.
      destruct n as [v|x| | ]; [| discriminate He | | ]; cbn [was_next is_next andb].
      * rewrite Hw. cbn [negb]. destruct Hok as [Hok|Hok]; [discriminate|]. unfold zip_get_next. cbn [fst snd].
        destruct (side_facts S1') as (-> & _). destruct (side_facts S2') as (-> & _). rewrite (enqueue_some o v l2 pos M2). cbn [negb orb].
        destruct l1 as [|y l1]; cbn [none negb orb].
        -- pose proof (enqueue_some o v l2 pos M2) as K. 
           assert (F : zend down (@nil A1) (enqueue max o v l2) (on1 p) (on2 p ++ [Nxt v]) w = w) by (unfold zend; rewrite Hw, K; reflexivity).
           eexists. split; [f_equal; f_equal; etransitivity; [exact (finish down w S1' S2')|exact F]|]. cbn [fold_left].
           unfold unpaired_step. cbn [fst snd]. destruct (enqueue max o v l2) as [|z l]; [discriminate|].
           split; [|split; eapply wside_of; eauto]. intros _. repeat (split; auto).
        -- cbn [none orb] in HN. destruct l2; [|discriminate]. clear HN HL.
           unfold unpaired_step. cbn [fst snd]. rewrite (@enqueue_room _ max o v []) in * by (simpl; lia). cbn [app] in *.
           destruct (side_pop S1') as (a2 & -> & P1). destruct (side_pop S2') as (b2 & -> & P2). cbn [hd_error tl opt_pair] in *.
           assert (F : zend down l1 (@nil A2) (on1 p) (on2 p ++ [Nxt v]) (tell down (Nxt (y, v)) w) =
             fold_left (give down true) (Nxt (y, v) :: (if none l1 then zip_end_of (A1 * A2) (on1 p) else [])) w).
           { cbn [fold_left]. rewrite G. unfold zend. rewrite ended_snoc, completed_snoc, Hok, (completed_ended _ Hok). cbn [none andb orb negb].
             set (w2 := tell down (Nxt (y, v)) w). unfold zip_end_of. rewrite andb_true_r.
             destruct (none l1); cbn [negb]; rewrite ?orb_true_r, ?orb_false_r, ?andb_true_r, ?andb_false_r, ?orb_false_r; auto.
             destruct (completed (on1 p)), (ended (on1 p)), (t_shut w2) eqn:Hw2; cbn [fold_left]; unfold give; rewrite ?Hw2; auto. }
           eexists. split; [f_equal; f_equal; etransitivity; [exact (finish down _ P1 P2)|exact F]|].
           rewrite <- F. split; [|split; eapply wside_of; eauto]. intros Hs. split; auto. split; auto. cbn [fst snd none andb]. rewrite orb_true_r, andb_true_r. split; auto.
           rewrite ended_snoc, Hok. cbn [orb]. destruct (none l1) eqn:HN; auto. cbn [andb].
           destruct (ended (on1 p)) eqn:HE2; auto. exfalso. revert Hs. unfold zend. rewrite HN. cbn [none andb negb]. rewrite orb_false_r.
           destruct (t_shut (tell down (Nxt (y, v)) w)) eqn:Hs2; [congruence|]. rewrite HE2. cbn [orb]. destruct (_ || _); cbn; rewrite orb_true_r; discriminate.
      * destruct Hok as [Hok|Hok]; [discriminate|]. 
        assert (F : zend down l1 l2 (on1 p) (on2 p ++ [Cmp]) w = fold_left (give down true) (zip_ends_by (A1 * A2) (negb (none l1 && none l2)) (on2 p) Cmp) w).
        { unfold zend. rewrite Hw, ended_snoc, completed_snoc. cbn [zip_ends_by orb]. rewrite !orb_true_r. destruct (none l1 && none l2) eqn:HB; cbn [negb]; auto.
          cbn [andb] in HL. rewrite Hok, orb_false_r in HL. rewrite HL, (completed_ended _ HL). cbn. rewrite G. reflexivity. }
        eexists. split; [f_equal; f_equal; etransitivity; [exact (finish down w S1' S2')|exact F]|]. rewrite <- F.
        split; [|split; eapply wside_of; eauto]. intros Hs. rewrite quiet2 by auto. cbn [fst snd]. split; auto. split; auto. split; auto.
        destruct (none l1 && none l2) eqn:HB; auto. exfalso.
        revert Hs. rewrite F. cbn. unfold give. rewrite Hw. cbn. rewrite orb_true_r. discriminate.
      * assert (F : zend down l1 l2 (on1 p) (on2 p ++ [Uns]) w = fold_left (give down true) (zip_ends_by (A1 * A2) (negb (none l1 && none l2)) (on2 p) Uns) w).
        { unfold zend. rewrite Hw, ended_snoc, completed_snoc. cbn [zip_ends_by orb]. rewrite !orb_true_r. destruct (none l1 && none l2) eqn:HB; cbn [negb]; rewrite ?orb_true_r; auto.
          cbn [andb] in HL. apply orb_false_elim in HL. destruct HL as [L1 L2]. rewrite L1, L2, (completed_ended _ L1), (completed_ended _ L2). cbn. rewrite G. reflexivity. }
        eexists. split; [f_equal; f_equal; etransitivity; [exact (finish down w S1' S2')|exact F]|]. rewrite <- F.
        split; [|split; eapply wside_of; eauto]. intros Hs. rewrite quiet2 by auto. cbn [fst snd]. split; auto. split; auto. split; auto.
        destruct (none l1 && none l2) eqn:HB; auto. exfalso. cbn [andb] in HL. apply orb_false_elim in HL. destruct HL as [L1 L2].
        revert Hs. rewrite F. cbn. rewrite L2. cbn. unfold give. rewrite Hw. cbn. rewrite orb_true_r. discriminate.
Qed.

Lemma zip_told : forall down (h : list (bool * event)), lawful (map snd h) ->
  zip max o down h = Some (all_told down true (zipq_answer max o) h).
Proof.
  intros down h H. unfold zip.
  apply (@lift_all A1 A2 E _ _ down true (zipq_answer max o) (zip_next down) ZI ZW (@lawful A1 A2 E)); auto.
  - exact (@lawful_pre A1 A2 E).
  - intros p s w e HI Hw Ho Hf. exact (@zip_open down _ _ w e HI Hw Ho Hf).
  - intros p s w e HW Hw Ho. exact (@zip_shut down _ _ w e HW Hw Ho).
  - exact ZW_skip.
  - split; [|split; [|split; reflexivity]]; (split; [|repeat split; reflexivity]); apply QI_new.
Qed.

(** Without overflow. *)
Lemma fits_pre : forall (p r : list event), fits max (p ++ r) -> fits max p.
Proof. intros p r H q x Hq. apply (H q (x ++ r)). now rewrite Hq, <- app_assoc. Qed.
Lemma unpaired_fits : forall p : list event, fits max p ->
  unpaired max o p = (skipn (length (values (on2 p))) (values (on1 p)), skipn (length (values (on1 p))) (values (on2 p))).
Proof.
  intros p. induction p as [|e p IH] using rev_ind; intros H; [reflexivity|].
  rewrite unpaired_snoc, (IH (fits_pre _ H)). destruct (H (p ++ [e]) [] ltac:(now rewrite app_nil_r)) as [F1 F2].
  rewrite on1_snoc, on2_snoc in *. clear H IH. set (v1 := values (on1 p)). set (v2 := values (on2 p)).
  assert (Q : skipn (length v2) v1 = [] \/ skipn (length v1) v2 = []).
  { destruct (le_ge_dec (length v1) (length v2)); [left|right]; apply skipn_all2; lia. }
  destruct e as [n|n]; rewrite ?app_nil_r in *; destruct n as [a|x| | ]; unfold unpaired_step; cbn [fst snd];
    rewrite ?values_snoc, ?app_nil_r in *; fold v1 v2 in F1, F2 |- *;
    try (destruct Q as [-> | ->]; auto; destruct (skipn (length v2) v1); reflexivity).
  - rewrite app_length in F1, F2. cbn [length] in F1, F2. rewrite app_length. cbn [length].
    rewrite enqueue_room by (rewrite skipn_length; lia). destruct (le_lt_dec (length v2) (length v1)).
    + rewrite (@skipn_all2 _ (length v1) v2), (@skipn_all2 _ (length v1 + 1) v2), skipn_app by lia.
      replace (length v2 - length v1) with 0 by lia. destruct (skipn (length v2) v1 ++ [a]) eqn:K; cbn [skipn]; now rewrite K.
    + rewrite (@skipn_all2 _ (length v2) v1), (@skipn_all2 _ (length v2) (v1 ++ [a])) by (rewrite ?app_length; cbn [length]; lia). cbn [app].
      destruct (skipn (length v1) v2) as [|b r] eqn:K; [apply (f_equal (@length _)) in K; rewrite skipn_length in K; simpl in K; lia|].
      replace (length v1 + 1) with (1 + length v1) by lia. rewrite <- skip_skip, K. reflexivity.
  - rewrite app_length in F1, F2. cbn [length] in F1, F2. rewrite app_length. cbn [length].
    rewrite enqueue_room by (rewrite skipn_length; lia). destruct (le_lt_dec (length v1) (length v2)).
    + rewrite (@skipn_all2 _ (length v2) v1), (@skipn_all2 _ (length v2 + 1) v1), skipn_app by lia.
      replace (length v1 - length v2) with 0 by lia. reflexivity.
    + rewrite (@skipn_all2 _ (length v1) v2), (@skipn_all2 _ (length v1) (v2 ++ [a])) by (rewrite ?app_length; cbn [length]; lia). cbn [app].
      destruct (skipn (length v2) v1) as [|b r] eqn:K; [apply (f_equal (@length _)) in K; rewrite skipn_length in K; simpl in K; lia|].
      replace (length v2 + 1) with (1 + length v2) by lia. rewrite <- skip_skip, K. reflexivity.
Qed.

Lemma nth_skip : forall A (l : list A) n, nth_error l n = hd_error (skipn n l).
Proof. intros A l. induction l as [|a l IH]; intros [|n]; simpl; auto. Qed.
Lemma none_skip : forall A (l : list A) n, none (skipn n l) = (length l <=? n).
Proof. intros A l. induction l as [|a l IH]; intros [|n]; simpl; auto. Qed.
Lemma zip_by_index : forall (p : list event) e, fits max p -> zipq_answer max o p e = zip_answer p e.
Proof.
  intros p e H. unfold zipq_answer, zip_answer. rewrite (unpaired_fits H), !nth_skip, !none_skip.
  set (v1 := values (on1 p)). set (v2 := values (on2 p)).
  assert (L : (length v1 <=? length v2) && (length v2 <=? length v1) = (length v1 =? length v2)).
  { destruct (Nat.eqb_spec (length v1) (length v2)), (Nat.leb_spec (length v1) (length v2)), (Nat.leb_spec (length v2) (length v1)); simpl; auto; lia. }
  rewrite L.
  assert (K : forall A (l : list A) n b r, skipn n l = b :: r -> none r = (length l =? Datatypes.S n)).
  { intros A l n b r Hs. apply (f_equal (@length _)) in Hs. rewrite skipn_length in Hs. simpl in Hs.
    destruct r as [|c r]; simpl in *; symmetry; [apply Nat.eqb_eq|apply Nat.eqb_neq]; lia. }
  destruct e as [[a|x| | ]|[a|x| | ]]; try reflexivity.
  - destruct (skipn (length v1) v2) as [|b r] eqn:Hs; cbn [hd_error]; auto. now rewrite (K _ _ _ _ _ Hs).
  - destruct (skipn (length v2) v1) as [|b r] eqn:Hs; cbn [hd_error]; auto. now rewrite (K _ _ _ _ _ Hs).
Qed.
Lemma answers_ext : forall down looks (h : list (bool * event)) p w, fits max (p ++ map snd h) ->
  answers down looks (zipq_answer max o) p w h = answers down looks (@zip_answer A1 A2 E) p w h.
Proof.
  intros down looks h. induction h as [|[d e] h IH]; intros p w H; simpl; auto.
  unfold answered. rewrite (@zip_by_index p e) by (eapply fits_pre; exact H). apply IH. now rewrite <- app_assoc.
Qed.
Lemma zip_told_by_index : forall down (h : list (bool * event)), lawful (map snd h) -> fits max (map snd h) ->
  zip max o down h = Some (all_told down true (@zip_answer A1 A2 E) h).
Proof. intros down h H F. rewrite (zip_told down h H). unfold all_told. now rewrite answers_ext. Qed.
End Zip.
