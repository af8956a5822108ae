(** with_latest_from; politeness; when the combining observables end. *)
From Verif Require Import Base SubscrModel LifeModel LifeProofs CombModel CombSpec CombProofs CombZip.
Set Implicit Arguments.

Section More.
Variables A1 A2 E : Type.
Notation event := (either2 A1 A2 E).
Notation on1 := (@on1 A1 A2 E).
Notation on2 := (@on2 A1 A2 E).

(** *** with_latest_from *)
Definition WLI (p : list event) (s : wlf A1 A2 E) : Prop := t_shut (wl_told s) = false ->
  wl_value s = latest_of (values (on2 p)) /\ wl_inner_closed s = ended (on2 p) /\ (wl_finished s = true -> ended (on2 p) = true).

Lemma wl_tell_told : forall down c (s : wlf A1 A2 E), wl_told (wl_tell down c s) = give down true (wl_told s) c.
Proof. intros down c s. unfold wl_tell, give. simpl. destruct (t_shut (wl_told s)); reflexivity. Qed.
Lemma wl_shut : forall down (s : wlf A1 A2 E) e, t_shut (wl_told s) = true -> wl_told (wl_step down s e) = wl_told s.
Proof.
  intros down s e H. assert (G : forall c, give down true (wl_told s) c = wl_told s) by (intros; unfold give; now rewrite H).
  destruct e as [[a|x| | ]|[a|x| | ]]; simpl; unfold wl_inner.
  - destruct (wl_value s); rewrite ?wl_tell_told; auto.
  - rewrite wl_tell_told; auto.
  - rewrite wl_tell_told; auto.
  - rewrite wl_tell_told; apply G.
  - destruct (wl_inner_closed s), (wl_finished s); auto.
  - destruct (wl_inner_closed s), (wl_finished s); simpl; rewrite ?wl_tell_told; auto; apply G.
  - destruct (wl_inner_closed s), (wl_finished s); simpl; destruct (wl_value s); simpl; rewrite ?wl_tell_told; auto; apply G.
  - destruct (wl_inner_closed s); auto.
Qed.
Lemma tell_shut : forall B down c (w : told B E), is_closing c = true -> t_shut (tell down c w) = true.
Proof. intros B down c w H. simpl. rewrite H, orb_true_r. reflexivity. Qed.
Lemma wl_open : forall down (p : list event) (s : wlf A1 A2 E) e, WLI p s -> t_shut (wl_told s) = false -> ok p e ->
  wl_told (wl_step down s e) = fold_left (give down true) (wl_answer p e) (wl_told s) /\ WLI (p ++ [e]) (wl_step down s e).
Proof.
  intros down p s e HI Hw Ho. destruct (HI Hw) as (Hv & Hc & Hf). unfold WLI. rewrite on2_snoc.
  assert (G : forall c, give down true (wl_told s) c = tell down c (wl_told s)) by (intros; unfold give; now rewrite Hw).
  destruct e as [[a|x| | ]|[a|x| | ]]; cbn [wl_step wl_source wl_answer ok] in *; rewrite ?app_nil_r.
  - rewrite <- Hv. destruct (wl_value s) as [b|] eqn:Hb; cbn [fold_left]; [|auto].
    rewrite wl_tell_told. split; auto. intros _. unfold wl_tell. rewrite Hw. cbn. rewrite Hb. auto.
  - rewrite wl_tell_told. cbn [fold_left]. split; auto. rewrite G, tell_shut by auto. discriminate.
  - rewrite wl_tell_told. cbn [fold_left]. split; auto. rewrite G, tell_shut by auto. discriminate.
  - rewrite wl_tell_told. cbn [fold_left wl_close wl_told]. split; auto. rewrite G, tell_shut by auto. discriminate.
  - destruct Ho as [Ho|Ho]; [discriminate|]. unfold wl_inner. rewrite Hc, Ho.
    destruct (wl_finished s) eqn:Hs; [rewrite Hf in Ho by auto; discriminate|]. cbn [wl_told fold_left]. split; auto. intros _. cbn.
    rewrite values_snoc, ended_snoc, latest_snoc, Ho. split; auto. split; auto. unfold wl_finished in *. cbn. rewrite Hs. auto.
  - destruct Ho as [Ho|Ho]; [discriminate|]. unfold wl_inner. rewrite Hc, Ho. cbn [wl_close wl_told fold_left]. rewrite wl_tell_told.
    replace (wl_told (if wl_finished s then s else _)) with (wl_told s) by (destruct (wl_finished s); auto).
    split; auto. rewrite G, tell_shut by auto. discriminate.
  - destruct Ho as [Ho|Ho]; [discriminate|]. unfold wl_inner. rewrite Hc, Ho.
    destruct (wl_finished s) eqn:Hs; [rewrite Hf in Ho by auto; discriminate|]. cbn [wl_value wl_close wl_told].
    rewrite values_snoc, app_nil_r, ended_snoc. cbn [orb]. rewrite orb_true_r.
    destruct (wl_value s) as [b|] eqn:Hb.
    + assert (K : none (values (on2 p)) = false) by (pose proof (latest_of_none (values (on2 p))) as K; now rewrite <- Hv in K). rewrite K. cbn. repeat split; auto.
    + assert (K : none (values (on2 p)) = true) by (pose proof (latest_of_none (values (on2 p))) as K; now rewrite <- Hv in K). rewrite K. rewrite wl_tell_told.
      cbn [fold_left wl_told]. split; auto. rewrite G, tell_shut by auto. discriminate.
  - unfold wl_inner. rewrite values_snoc, app_nil_r, ended_snoc. rewrite orb_true_r. cbn [fold_left].
    destruct (wl_inner_closed s) eqn:K; split; auto; intros _; repeat split; auto.
Qed.
Lemma wl_run : forall down (h p : list event) (s : wlf A1 A2 E), WLI p s -> lawful (p ++ h) ->
  wl_told (fold_left (wl_step down) h s) = answers down true (@wl_answer A1 A2 E) p (wl_told s) (map (pair false) h).
Proof.
  intros down h. induction h as [|e h IH]; intros p s HI HL; cbn [fold_left map answers]; auto.
  assert (HL' : lawful ((p ++ [e]) ++ h)) by now rewrite <- app_assoc.
  assert (Ho : ok p e) by (apply lawful_ok; eapply lawful_pre; exact HL').
  unfold answered. destruct (t_shut (wl_told s)) eqn:Hw.
  - rewrite (IH (p ++ [e])); auto.
    + rewrite wl_shut by auto. destruct (error_in e); reflexivity.
    + unfold WLI. rewrite wl_shut by auto. congruence.
  - destruct (@wl_open down p s e HI Hw Ho) as [H1 H2]. rewrite (IH (p ++ [e])); auto. now rewrite H1.
Qed.
Lemma with_latest_told : forall down (h : list event), lawful h ->
  with_latest_from down h = all_told down true (@wl_answer A1 A2 E) (map (pair false) h).
Proof.
  intros down h H. unfold with_latest_from, all_told. rewrite (@wl_run down h []); auto. intros _. repeat split; auto.
Qed.

(** *** Politeness *)
Definition PI {B} (down : list (ncall B E) -> bool) (w : told B E) : Prop :=
  forall q c r, t_out w = q ++ c :: r -> (r <> [] \/ t_shut w = false) -> is_closing c = false /\ down (q ++ [c]) = false.
Lemma PI_give : forall B down (w : told B E) c, PI down w -> PI down (give down true w c).
Proof.
  intros B down w c H. unfold give. simpl. destruct (t_shut w) eqn:Hw; auto.
  intros q d r Hq Hr. simpl in Hq, Hr. rewrite Hw in Hr. simpl in Hr.
  destruct r as [|d' r] using rev_ind.
  - apply app_inj_tail in Hq. destruct Hq as [<- <-]. destruct Hr as [Hr|Hr]; [now elim Hr|]. now apply orb_false_elim in Hr.
  - clear IHr. rewrite app_comm_cons, app_assoc in Hq. apply app_inj_tail in Hq. destruct Hq as [Hq <-]. apply (H q d r Hq). now right.
Qed.
Lemma PI_fold : forall B down (l : list (ncall B E)) w, PI down w -> PI down (fold_left (give down true) l w).
Proof. intros B down l. induction l as [|c l IH]; intros w H; simpl; auto. apply IH. now apply PI_give. Qed.
Lemma answers_polite : forall B down (answer : list event -> event -> list (ncall B E)) h p w,
  forallb (fun de => negb (fst de)) h = true -> PI down w -> PI down (answers down true answer p w h).
Proof.
  intros B down answer h. induction h as [|[d e] h IH]; intros p w Hd H; simpl; auto. simpl in Hd. apply andb_true_iff in Hd. destruct Hd as [Hd Hd'].
  apply IH; auto. unfold answered. destruct d; [discriminate|]. destruct (t_shut w); [destruct (error_in e); auto|now apply PI_fold].
Qed.
Lemma all_polite : forall B down (answer : list event -> event -> list (ncall B E)) h,
  forallb (fun de => negb (fst de)) h = true -> polite down (all_told down true answer h).
Proof.
  intros B down answer h Hd q c c' r Hq. refine (@answers_polite B down answer h [] t_new Hd _ q c (c' :: r) Hq _); [|left; discriminate].
  intros q' d r' Hn. simpl in Hn. now destruct q'.
Qed.

(** *** They end only when nothing can be emitted any more. *)
Lemma ended_app : forall A (k r : list (ncall A E)), ended k = true -> ended (k ++ r) = true.
Proof. intros A k r H. unfold ended in *. now rewrite existsb_app, H. Qed.
Lemma no_more : forall (p r : list event), lawful (p ++ r) ->
  (ended (on1 p) = true -> values (on1 (p ++ r)) = values (on1 p)) /\
  (ended (on2 p) = true -> values (on2 (p ++ r)) = values (on2 p)).
Proof.
  intros p r. induction r as [|e r IH] using rev_ind; intros HL; [now rewrite app_nil_r|].
  rewrite app_assoc in HL |- *. pose proof (lawful_ok _ _ HL) as Ho. destruct (IH (lawful_pre _ _ HL)) as [I1 I2].
  rewrite on1_snoc, on2_snoc. destruct e as [n|n]; rewrite ?app_nil_r, ?values_snoc; cbn [ok] in Ho.
  - split; auto. intros K. destruct Ho as [->|Ho]; [rewrite app_nil_r; auto|].
    rewrite on1_app in Ho. rewrite (@ended_app _ _ _ K) in Ho. discriminate.
  - split; auto. intros K. destruct Ho as [->|Ho]; [rewrite app_nil_r; auto|].
    rewrite on2_app in Ho. rewrite (@ended_app _ _ _ K) in Ho. discriminate.
Qed.
Lemma only_uns : forall (p r : list event) e, lawful (p ++ r ++ [e]) ->
  match e with On1 n => ended (on1 p) = true -> n = Uns | On2 n => ended (on2 p) = true -> n = Uns end.
Proof.
  intros p r e HL. rewrite app_assoc in HL. pose proof (lawful_ok _ _ HL) as Ho. destruct e as [n|n]; cbn [ok] in Ho; intros K; (destruct Ho as [Ho|Ho]; [exact Ho|]).
  - rewrite on1_app, (@ended_app _ _ _ K) in Ho. discriminate.
  - rewrite on2_app, (@ended_app _ _ _ K) in Ho. discriminate.
Qed.
Definition all_ended (p : list event) : bool := ended (on1 p) && ended (on2 p).
Lemma mute_ended : forall B (answer : list event -> event -> list (ncall B E)) (p : list event),
  (forall q, values (answer q (On1 Uns)) = [] /\ values (answer q (On2 Uns)) = []) ->
  all_ended p = true -> mute answer p.
Proof.
  intros B answer p HA H r e HL. apply andb_true_iff in H. destruct H as [H1 H2]. pose proof (only_uns _ _ _ HL) as K.
  destruct e as [n|n]; rewrite K by assumption; apply HA.
Qed.
Lemma ends_quiet : forall A A' B mine other (n : ncall A E), values (@cl_ends E A A' B mine other n) = [].
Proof. intros. destruct n; simpl; auto; repeat (destruct (_ || _)); repeat (destruct (ended _)); repeat (destruct (_ && _)); reflexivity. Qed.

Lemma cl_needs : forall (p : list event) e, (e = On1 Cmp \/ e = On1 Uns \/ e = On2 Cmp \/ e = On2 Uns) ->
  cl_answer p e <> [] ->
  all_ended (p ++ [e]) = true \/
  ended (on1 (p ++ [e])) = true /\ values (on1 (p ++ [e])) = [] \/ ended (on2 (p ++ [e])) = true /\ values (on2 (p ++ [e])) = [].
Proof.
  intros p e He. unfold all_ended. rewrite on1_snoc, on2_snoc.
  assert (N : forall A (l : list A), none l = true -> l = []) by (intros A [|]; auto; discriminate).
  pose proof (N _ (values (on1 p))) as N1. pose proof (N _ (values (on2 p))) as N2.
  destruct He as [ -> |[ -> |[ -> | -> ]]]; cbn [cl_answer cl_ends]; rewrite !ended_snoc, !values_snoc, !app_nil_r, ?orb_true_r, ?(ended_split (on1 p)), ?(ended_split (on2 p));
    destruct (none (values (on1 p))), (none (values (on2 p))), (errored (on1 p)), (errored (on2 p)), (completed (on1 p)), (completed (on2 p)), (unsubbed (on1 p)), (unsubbed (on2 p)); cbn; auto; congruence.
Qed.
Lemma cl_mute_ended : forall (p : list event), all_ended p = true -> mute (@cl_answer A1 A2 E) p.
Proof. intros p. apply mute_ended. intros q. split; apply ends_quiet. Qed.
Lemma cl_mute : forall (p : list event) e, (e = On1 Cmp \/ e = On1 Uns \/ e = On2 Cmp \/ e = On2 Uns) ->
  cl_answer p e <> [] -> mute (@cl_answer A1 A2 E) (p ++ [e]).
Proof.
  intros p e He H. destruct (@cl_needs p e He H) as [K|[[K V]|[K V]]]; [now apply cl_mute_ended| |]; clear He H;
    intros r e' HL; destruct (no_more _ (r ++ [e']) HL) as [M1 M2]; pose proof (only_uns _ _ _ HL) as U.
  - assert (HL' : lawful ((p ++ [e]) ++ r)) by (rewrite app_assoc in HL; eapply lawful_pre; exact HL).
    destruct (no_more _ r HL') as [L1 _]. destruct e' as [n|n].
    + rewrite (U K). apply ends_quiet.
    + destruct n; try apply ends_quiet. cbn [cl_answer]. rewrite L1, V by auto. reflexivity.
  - assert (HL' : lawful ((p ++ [e]) ++ r)) by (rewrite app_assoc in HL; eapply lawful_pre; exact HL).
    destruct (no_more _ r HL') as [_ L1]. destruct e' as [n|n].
    + destruct n; try apply ends_quiet. cbn [cl_answer]. rewrite L1, V by auto. reflexivity.
    + rewrite (U K). apply ends_quiet.
Qed.

(** combine_changes and join end only after both sources. *)
Lemma both_needs : forall A A' B last (mine : list (ncall A E)) (other : list (ncall A' E)) (n : ncall A E),
  n = Cmp \/ n = Uns -> both_ends last mine other n <> ([] : list (ncall B E)) -> ended other = true.
Proof.
  intros A A' B last mine other n Hn H. pose proof (@completed_ended E A' other) as C.
  destruct Hn; subst n; cbn in H; destruct (completed other), (ended other), (ended mine); auto; try (discriminate (C eq_refl)); congruence.
Qed.
Lemma cc_mute : forall (p : list event) e, (e = On1 Cmp \/ e = On1 Uns \/ e = On2 Cmp \/ e = On2 Uns) ->
  cc_answer p e <> [] -> mute (@cc_answer A1 A2 E) (p ++ [e]).
Proof.
  intros p e He H. apply mute_ended.
  - intros q. split; cbn; repeat (destruct (ended _); auto).
  - unfold all_ended. rewrite on1_snoc, on2_snoc.
    destruct He as [ -> |[ -> |[ -> | -> ]]]; rewrite ended_snoc, ?app_nil_r, orb_true_r; cbn [andb]; rewrite ?andb_true_r; eapply both_needs; try exact H; auto.
Qed.
Lemma join_mute : forall (p : list event) e, (e = On1 Cmp \/ e = On1 Uns \/ e = On2 Cmp \/ e = On2 Uns) ->
  join_answer p e <> [] -> mute (@join_answer A1 A2 E) (p ++ [e]).
Proof.
  intros p e He H. apply mute_ended.
  - intros q. split; cbn; repeat (destruct (ended _); auto).
  - unfold all_ended. rewrite on1_snoc, on2_snoc.
    destruct He as [ -> |[ -> |[ -> | -> ]]]; rewrite ended_snoc, ?app_nil_r, orb_true_r; cbn [andb]; rewrite ?andb_true_r; eapply both_needs; try exact H; auto.
Qed.

Lemma ends_event : forall B (answer : list event -> event -> list (ncall B E)) p e,
  (forall a, ~ ends_it (answer p (On1 (Nxt a)))) -> (forall a, ~ ends_it (answer p (On2 (Nxt a)))) ->
  (forall x, ~ ends_it (answer p (On1 (Err x)))) -> (forall x, ~ ends_it (answer p (On2 (Err x)))) ->
  ends_it (answer p e) -> (e = On1 Cmp \/ e = On1 Uns \/ e = On2 Cmp \/ e = On2 Uns) /\ answer p e <> [].
Proof.
  intros B answer p e H1 H2 H3 H4 H. split; [|intros K; rewrite K in H; destruct H as [[]|[]]].
  destruct e as [[a|x| | ]|[a|x| | ]]; auto; exfalso; [eapply H1|eapply H3|eapply H2|eapply H4]; exact H.
Qed.
Ltac nots := intros; unfold ends_it; simpl; repeat match goal with |- context [match ?x with _ => _ end] => destruct x end; simpl; intuition discriminate.
Lemma cl_ends_late : forall (p : list event) e, ends_it (cl_answer p e) -> mute (@cl_answer A1 A2 E) (p ++ [e]).
Proof. intros p e H. apply ends_event in H; try nots. destruct H. now apply cl_mute. Qed.
Lemma cc_ends_late : forall (p : list event) e, ends_it (cc_answer p e) -> mute (@cc_answer A1 A2 E) (p ++ [e]).
Proof. intros p e H. apply ends_event in H; try nots. destruct H. now apply cc_mute. Qed.
Lemma join_ends_late : forall (p : list event) e, ends_it (join_answer p e) -> mute (@join_answer A1 A2 E) (p ++ [e]).
Proof. intros p e H. apply ends_event in H; try nots. destruct H. now apply join_mute. Qed.

Lemma pick_nil : forall max o (q : list A1 * list A2) (e : event),
  (fst q = [] -> (forall a, e <> On1 (Nxt a)) -> fst (unpaired_step max o q e) = []) /\
  (snd q = [] -> (forall a, e <> On2 (Nxt a)) -> snd (unpaired_step max o q e) = []).
Proof.
  intros max o [l1 l2] e. unfold unpaired_step. cbn [fst snd]. split; intros -> H; destruct e as [[a|x| | ]|[a|x| | ]]; try (now elim (H a)); cbn; auto.
  - destruct (enqueue max o a l1); reflexivity.
  - destruct l1; reflexivity.
  - destruct l1; reflexivity.
  - destruct l1; reflexivity.
  - destruct l1; reflexivity.
  - destruct l1; reflexivity.
  - destruct l1; reflexivity.
Qed.
Lemma enqueued : forall A max o (a : A) l, 0 < max -> exists b r, enqueue max o a l = b :: r.
Proof.
  intros A max o a l Hm. destruct (enqueue max o a l) as [|b r] eqn:K; [|eauto]. exfalso.
  apply (f_equal (@length _)) in K. destruct o; simpl in K; [rewrite skipn_length in K|rewrite firstn_length in K]; rewrite app_length in K; simpl in K; lia.
Qed.
Definition spent max o (p : list event) : Prop :=
  (ended (on1 p) = true /\ fst (unpaired max o p) = []) \/ (ended (on2 p) = true /\ snd (unpaired max o p) = []).
Lemma spent_stays : forall max o (p r : list event), lawful (p ++ r) -> spent max o p -> spent max o (p ++ r).
Proof.
  intros max o p r. induction r as [|e r IH] using rev_ind; intros HL H; [now rewrite app_nil_r|].
  rewrite app_assoc in *. specialize (IH (lawful_pre _ _ HL) H). pose proof (lawful_ok _ _ HL) as Ho.
  unfold spent in *. rewrite unpaired_snoc, on1_snoc, on2_snoc. destruct (pick_nil max o (unpaired max o (p ++ r)) e) as [P1 P2].
  destruct IH as [[K1 K2]|[K1 K2]]; [left|right]; (split; [now apply ended_app|]); [apply P1|apply P2]; auto; intros a ->; cbn in Ho; destruct Ho as [Ho|Ho]; congruence.
Qed.
Lemma end_of_ends : forall B A (k : list (ncall A E)), ends_it (zip_end_of B k) -> ended k = true.
Proof.
  intros B A k H. unfold zip_end_of in H. pose proof (@completed_ended E A k) as C. destruct (completed k) eqn:HC.
  - destruct (ended k); auto. discriminate (C eq_refl).
  - destruct (ended k); auto. destruct H as [[]|[]].
Qed.
Lemma zip_needs : forall max o (p : list event) e, 0 < max -> ends_it (zipq_answer max o p e) -> spent max o (p ++ [e]).
Proof.
  intros max o p e Hm H. unfold spent. rewrite unpaired_snoc, on1_snoc, on2_snoc. unfold zipq_answer in H.
  destruct (unpaired max o p) as [q1 q2]. destruct e as [[a|x| | ]|[a|x| | ]]; cbn in H.
  - destruct q2 as [|b r]; [destruct H as [[]|[]]|]. right. unfold unpaired_step. cbn [fst snd].
    destruct (enqueued o a q1 Hm) as (c & l & ->). cbn [snd]. destruct r as [|? r]; [|destruct H as [[|[]]|[|[]]]; discriminate].
    split; auto. rewrite app_nil_r. apply (@end_of_ends (A1 * A2)). destruct H as [[|]|[|]]; try discriminate; [left|right]; assumption.
  - destruct H as [[|[]]|[|[]]]; discriminate.
  - destruct q1, q2; cbn in *; try solve [destruct H as [[]|[]]]; left; rewrite ended_snoc, orb_true_r; auto.
  - destruct q1, q2; cbn in *; rewrite ?orb_true_r in H; try solve [destruct H as [[]|[]]]; left; rewrite ended_snoc, orb_true_r; auto.
  - destruct q1 as [|b r]; [destruct H as [[]|[]]|]. left. unfold unpaired_step. cbn [fst snd].
    destruct (enqueued o a q2 Hm) as (c & l & ->). cbn [fst]. destruct r as [|? r]; [|destruct H as [[|[]]|[|[]]]; discriminate].
    split; auto. rewrite app_nil_r. apply (@end_of_ends (A1 * A2)). destruct H as [[|]|[|]]; try discriminate; [left|right]; assumption.
  - destruct H as [[|[]]|[|[]]]; discriminate.
  - destruct q1, q2; cbn in *; try solve [destruct H as [[]|[]]]; right; rewrite ended_snoc, orb_true_r; auto.
  - destruct q1, q2; cbn in *; rewrite ?orb_true_r in H; try solve [destruct H as [[]|[]]]; right; rewrite ended_snoc, orb_true_r; auto.
Qed.
Lemma zip_ends_quiet : forall A l (mine : list (ncall A E)) n, values (zip_ends_by (A1 * A2) l mine n) = [].
Proof. intros A l mine n. destruct n; cbn; auto; [destruct l|destruct (ended mine), l]; reflexivity. Qed.
Lemma zip_ends_late : forall max o (p : list event) e, 0 < max -> ends_it (zipq_answer max o p e) -> mute (zipq_answer max o) (p ++ [e]).
Proof.
  intros max o p e Hm H r e' HL. pose proof (@zip_needs max o p e Hm H) as K. rewrite app_assoc in HL.
  pose proof (@spent_stays max o (p ++ [e]) r (lawful_pre _ _ HL) K) as K'. pose proof (lawful_ok _ _ HL) as Ho.
  unfold spent in K'. unfold zipq_answer. destruct (unpaired max o ((p ++ [e]) ++ r)) as [q1 q2]. cbn [fst snd] in K'.
  destruct e' as [[a|x| | ]|[a|x| | ]]; try apply zip_ends_quiet; cbn [ok] in Ho; (destruct Ho as [Ho|Ho]; [discriminate|]);
    destruct K' as [[K1 K2]|[K1 K2]]; try congruence; subst; reflexivity.
Qed.
Lemma wl_ends_late : forall (p : list event) e, lawful (p ++ [e]) -> ends_it (wl_answer p e) -> mute (@wl_answer A1 A2 E) (p ++ [e]).
Proof.
  intros p e HL0 H r e' HL. assert (HL' : lawful ((p ++ [e]) ++ r)) by (rewrite app_assoc in HL; eapply lawful_pre; exact HL).
  pose proof (only_uns _ _ _ HL) as U. destruct (no_more _ r HL') as [_ M]. rewrite on1_snoc, on2_snoc in *.
  destruct e as [[a|x| | ]|[a|x| | ]]; cbn in H;
    try solve [destruct H as [[|[]]|[|[]]]; discriminate]; try solve [destruct H as [[]|[]]].
  - destruct (latest_of _); [destruct H as [[|[]]|[|[]]]; discriminate|destruct H as [[]|[]]].
  - rewrite ended_snoc, orb_true_r, !app_nil_r in *. destruct e' as [n|[b|x| | ]]; cbn; auto; [rewrite (U eq_refl); reflexivity|].
    now destruct (none _).
  - rewrite ended_snoc, orb_true_r, !app_nil_r in *. destruct e' as [n|[b|x| | ]]; cbn; auto; [rewrite (U eq_refl); reflexivity|].
    now destruct (none _).
  - destruct (none (values (on2 p))) eqn:N; [|destruct H as [[]|[]]]. rewrite ended_snoc, orb_true_r, values_snoc, app_nil_r in M.
    specialize (M eq_refl). destruct e' as [[b|x| | ]|[b|x| | ]]; cbn [wl_answer]; auto; rewrite M; destruct (values (on2 p)); try discriminate; reflexivity.
Qed.

Lemma in_give : forall B down looks (w : told B E) c d, In d (t_out (give down looks w c)) -> In d (t_out w) \/ d = c.
Proof.
  intros B down looks w c d H. unfold give in H. destruct (looks && t_shut w); [auto|]. simpl in H. apply in_app_iff in H. destruct H as [H|[H|[]]]; auto.
Qed.
Lemma in_gives : forall B down looks l (w : told B E) d, In d (t_out (fold_left (give down looks) l w)) -> In d (t_out w) \/ In d l.
Proof.
  intros B down looks l. induction l as [|c l IH]; intros w d H; simpl in *; auto.
  apply IH in H. destruct H as [H|H]; auto. apply in_give in H. destruct H; auto.
Qed.
Lemma ends_from : forall B down looks (answer : list event -> event -> list (ncall B E)) d, d = Cmp \/ d = Uns ->
  forall h p w, In d (t_out (answers down looks answer p w h)) -> In d (t_out w) \/
  exists q e r, map snd h = q ++ e :: r /\ In d (answer (p ++ q) e).
Proof.
  intros B down looks answer d Hd h. induction h as [|[df e] h IH]; intros p w H; simpl in *; auto.
  apply IH in H. destruct H as [H|(q & e' & r & Hq & H)].
  - unfold answered in H. destruct (t_shut w).
    + destruct (error_in e) as [x|]; [destruct df|]; auto. simpl in H. apply in_app_iff in H. destruct H as [H|[H|[]]]; auto. destruct Hd; congruence.
    + apply in_gives in H. destruct H as [H|H]; auto. right. exists [], e, (map snd h). rewrite app_nil_r. auto.
  - right. exists (e :: q), e', r. rewrite Hq. split; auto. rewrite <- app_assoc in H. exact H.
Qed.
Lemma ends_when_mute : forall B down looks (answer : list event -> event -> list (ncall B E)) h,
  (forall p e, lawful (p ++ [e]) -> ends_it (answer p e) -> mute answer (p ++ [e])) ->
  lawful (map snd h) -> ends_it (all_told down looks answer h) -> mute answer (map snd h).
Proof.
  intros B down looks answer h HA HL H.
  assert (K : exists q e r, map snd h = q ++ e :: r /\ ends_it (answer q e)).
  { destruct H as [H|H]; unfold all_told in H; apply ends_from in H; auto; destruct H as [[]|(q & e & r & H1 & H2)]; exists q, e, r; split; auto; [left|right]; exact H2. }
  destruct K as (q & e & r & Hq & K). rewrite Hq in *. intros r' e' HL'.
  replace (q ++ e :: r) with ((q ++ [e]) ++ r) in * by now rewrite <- app_assoc.
  rewrite <- app_assoc. apply HA; [eapply lawful_pre; exact HL|exact K|]. rewrite <- !app_assoc in *. exact HL'.
Qed.

(** *** All the pairs of zip. *)
Section Emitted.
Variable B : Type.
Variable answer : list event -> event -> list (ncall B E).
Notation never := (fun _ : list (ncall B E) => false).
Fixpoint emitted (p h : list event) : list B :=
  match h with [] => [] | e :: r => values (answer p e) ++ emitted (p ++ [e]) r end.
Lemma emitted_snoc : forall h p e, emitted p (h ++ [e]) = emitted p h ++ values (answer (p ++ h) e).
Proof.
  intros h. induction h as [|f h IH]; intros p e; simpl; [rewrite !app_nil_r; auto|]. rewrite IH, <- !app_assoc. reflexivity.
Qed.
Hypothesis shape : forall p e, error_in e = None -> exists vs l, answer p e = map (@Nxt B E) vs ++ l /\ values l = [] /\ (l = [] \/ ends_it l).
Hypothesis late : forall p e, lawful (p ++ [e]) -> ends_it (answer p e) -> mute answer (p ++ [e]).
Lemma give_values : forall vs (w : told B E), t_shut w = false ->
  fold_left (give never true) (map (@Nxt B E) vs) w = mkTold (t_out w ++ map (@Nxt B E) vs) false.
Proof.
  intros vs. induction vs as [|v vs IH]; intros [l b] Hw; cbn [map fold_left]; cbn in Hw; subst; [now rewrite app_nil_r|].
  unfold give at 2. cbn [andb t_shut]. rewrite IH by reflexivity. cbn [tell t_out]. now rewrite <- app_assoc.
Qed.
Lemma values_app : forall (l l' : list (ncall B E)), values (l ++ l') = values l ++ values l'.
Proof. intros l l'. induction l as [|[] l IH]; simpl; auto. now rewrite IH. Qed.
Lemma values_nxt : forall vs, values (map (@Nxt B E) vs) = vs.
Proof. induction vs as [|v vs IH]; simpl; auto. now rewrite IH. Qed.
Lemma give_rest : forall l (w : told B E), values l = [] -> values (t_out (fold_left (give never true) l w)) = values (t_out w).
Proof.
  intros l. induction l as [|c l IH]; intros w H; simpl; auto.
  destruct c; simpl in H; [discriminate| | | ]; rewrite IH by auto; unfold give; simpl; destruct (t_shut w); auto; simpl; rewrite values_app; apply app_nil_r.
Qed.
Lemma give_shut : forall l (w : told B E), t_shut (fold_left (give never true) l w) = true -> t_shut w = true \/ existsb (@is_closing B E) l = true.
Proof.
  intros l. induction l as [|c l IH]; intros w H; simpl in *; auto.
  apply IH in H. destruct H as [H|H]; [|rewrite H, orb_true_r; auto].
  unfold give in H. simpl in H. destruct (t_shut w) eqn:Hw; auto. simpl in H. rewrite Hw, orb_false_r in H. simpl in H. rewrite H. auto.
Qed.
Lemma mute_emitted : forall h p, mute answer p -> lawful (p ++ h) -> emitted p h = [].
Proof.
  intros h. induction h as [|e h IH]; intros p HM HL; simpl; auto.
  assert (HL' : lawful ((p ++ [e]) ++ h)) by now rewrite <- app_assoc.
  rewrite (IH (p ++ [e])); auto.
  - rewrite app_nil_r. pose proof (HM [] e) as K. cbn [app] in K. rewrite app_nil_r in K. apply K. eapply lawful_pre; exact HL'.
  - intros r e' K. rewrite <- app_assoc in K |- *. exact (HM ([e] ++ r) e' K).
Qed.
Lemma all_emitted : forall (h : list (bool * event)) p (w : told B E), lawful (p ++ map snd h) ->
  (forall e, In e (map snd h) -> error_in e = None) -> (t_shut w = true -> mute answer p) ->
  values (t_out (answers never true answer p w h)) = values (t_out w) ++ emitted p (map snd h).
Proof.
  intros h. induction h as [|[d e] h IH]; intros p w HL HE HM; cbn [answers map snd emitted] in *; [now rewrite app_nil_r|].
  assert (HL' : lawful ((p ++ [e]) ++ map snd h)) by now rewrite <- app_assoc.
  assert (HL1 : lawful (p ++ [e])) by (eapply lawful_pre; exact HL').
  unfold answered. rewrite (HE e) by now left. destruct (t_shut w) eqn:Hw.
  - specialize (HM eq_refl). assert (HM' : mute answer (p ++ [e])).
    { intros r e' K. rewrite <- app_assoc in K |- *. exact (HM ([e] ++ r) e' K). }
    rewrite IH; auto; [|intros; apply HE; now right]. f_equal. rewrite !mute_emitted; auto.
    pose proof (HM [] e) as K. cbn [app] in K. rewrite app_nil_r in K. now rewrite K.
  - destruct (shape p e (HE e ltac:(now left))) as (vs & l & HA & HV & Hl). rewrite IH; auto; [|intros; apply HE; now right|].
    + rewrite app_assoc. f_equal. rewrite HA, fold_left_app, give_rest, give_values, values_app, HV, app_nil_r by auto. simpl. now rewrite values_app.
    + intros Hs. destruct Hl as [->|Hl].
      * exfalso. rewrite HA, app_nil_r, give_values in Hs by auto. discriminate.
      * apply late; auto. rewrite HA. destruct Hl as [Hl|Hl]; [left|right]; apply in_app_iff; auto.
Qed.
End Emitted.

Lemma combine_snoc1 : forall (v1 : list A1) (v2 : list A2) a,
  combine (v1 ++ [a]) v2 = combine v1 v2 ++ match nth_error v2 (length v1) with Some b => [(a, b)] | None => [] end.
Proof. intros v1. induction v1 as [|x v1 IH]; intros [|y v2] a; simpl; auto. now rewrite IH. Qed.
Lemma combine_snoc2 : forall (v1 : list A1) (v2 : list A2) b,
  combine v1 (v2 ++ [b]) = combine v1 v2 ++ match nth_error v1 (length v2) with Some a => [(a, b)] | None => [] end.
Proof. intros v1 v2. revert v1. induction v2 as [|y v2 IH]; intros [|x v1] b; simpl; auto. - now destruct v1. - now rewrite IH. Qed.
Lemma end_of_quiet : forall A (k : list (ncall A E)), values (zip_end_of (A1 * A2) k) = [].
Proof. intros A k. unfold zip_end_of. destruct (completed k), (ended k); reflexivity. Qed.
Lemma zip_emitted : forall p : list event, emitted (@zip_answer A1 A2 E) [] p = combine (values (on1 p)) (values (on2 p)).
Proof.
  intros p. induction p as [|e p IH] using rev_ind; auto. rewrite emitted_snoc, IH, on1_snoc, on2_snoc. cbn [app].
  destruct e as [[a|x| | ]|[a|x| | ]]; rewrite ?app_nil_r, !values_snoc, ?app_nil_r; cbn [zip_answer]; rewrite ?zip_ends_quiet, ?app_nil_r; auto.
  - rewrite combine_snoc1. f_equal. destruct (nth_error _ _); auto. cbn [values]. destruct (_ =? _); rewrite ?end_of_quiet; auto.
  - rewrite combine_snoc2. f_equal. destruct (nth_error _ _); auto. cbn [values]. destruct (_ =? _); rewrite ?end_of_quiet; auto.
Qed.
Lemma emitted_ext : forall B (f g : list event -> event -> list (ncall B E)) (Q : list event -> Prop) h p,
  (forall q r, Q (q ++ r) -> Q q) -> (forall q e, Q q -> f q e = g q e) -> Q (p ++ h) -> emitted f p h = emitted g p h.
Proof.
  intros B f g Q h. induction h as [|e h IH]; intros p HQ HE HP; simpl; auto. rewrite HE, IH; auto; [now rewrite <- app_assoc|]. eapply HQ; exact HP.
Qed.
Lemma zip_shape : forall max o (p : list event) e, error_in e = None ->
  exists vs l, zipq_answer max o p e = map (@Nxt (A1 * A2) E) vs ++ l /\ values l = [] /\ (l = [] \/ ends_it l).
Proof.
  assert (X : forall A (k : list (ncall A E)), zip_end_of (A1 * A2) k = [] \/ ends_it (zip_end_of (A1 * A2) k)).
  { intros A k. unfold zip_end_of, ends_it. destruct (completed k), (ended k); simpl; auto. }
  assert (Y : forall A b (k : list (ncall A E)) n, (forall x, n <> Err x) -> zip_ends_by (A1 * A2) b k n = [] \/ ends_it (zip_ends_by (A1 * A2) b k n)).
  { intros A b k n Hn. unfold ends_it. destruct n as [a|x| | ]; [auto|now elim (Hn x)| |]; cbn; [destruct b|destruct (ended k || b)]; simpl; auto. }
  intros max o p e He. unfold zipq_answer. destruct (unpaired max o p) as [q1 q2]. destruct e as [[a|x| | ]|[a|x| | ]]; try discriminate He;
    try (exists []; match goal with |- exists l, ?x = _ /\ _ => exists x end; split; [reflexivity|]; split; [apply zip_ends_quiet|]; apply Y; intros; discriminate).
  - destruct q2 as [|b r]; [exists [], []; auto|]. exists [(a, b)]. eexists. split; [reflexivity|]. destruct (none r); auto. split; [apply end_of_quiet|apply X].
  - destruct q1 as [|b r]; [exists [], []; auto|]. exists [(b, a)]. eexists. split; [reflexivity|]. destruct (none r); auto. split; [apply end_of_quiet|apply X].
Qed.
Lemma zip_pairs : forall max o (h : list (bool * event)), 0 < max -> lawful (map snd h) -> fits max (map snd h) ->
  (forall e, In e (map snd h) -> error_in e = None) ->
  exists l, zip max o (fun _ => false) h = Some l /\ values l = combine (values (on1 (map snd h))) (values (on2 (map snd h))).
Proof.
  intros max o h Hm HL HF HE. eexists. split; [apply zip_told; auto|]. unfold all_told.
  rewrite (@all_emitted _ (zipq_answer max o)); auto.
  - cbn [t_out t_new values app]. rewrite <- zip_emitted. apply (@emitted_ext _ _ _ (fits max)); auto.
    + intros q r K. eapply fits_pre; exact K.
    + intros q e K. now apply zip_by_index.
  - apply zip_shape.
  - intros p e _ K. now apply zip_ends_late.
  - discriminate.
Qed.

Lemma no_deferred : forall l : list event, forallb (fun de : bool * event => negb (fst de)) (map (pair false) l) = true.
Proof. induction l; simpl; auto. Qed.
Lemma polite_all : forall (h : list (bool * event)), lawful (map snd h) ->
  forallb (fun de => negb (fst de)) h = true ->
  (forall max o down, 0 < max -> exists l, zip max o down h = Some l /\ polite down l) /\
  (forall down, exists l, combine_latest down h = Some l /\ polite down l) /\
  (forall down, exists l, combine_changes down h = Some l /\ polite down l) /\
  (forall down, polite down (with_latest_from down (map snd h))).
Proof.
  intros h HL Hd. split; [|split; [|split]].
  - intros max o down Hm. eexists. split; [apply zip_told; auto|]. now apply all_polite.
  - intros down. eexists. split; [apply combine_latest_told; auto|]. now apply all_polite.
  - intros down. eexists. split; [apply combine_changes_told; auto|]. now apply all_polite.
  - intros down. rewrite with_latest_told by auto. apply all_polite. apply no_deferred.
Qed.
Lemma late_all : forall (h : list (bool * event)) max o down down', 0 < max -> lawful (map snd h) ->
  (forall l, zip max o down h = Some l -> ends_it l -> mute (zipq_answer max o) (map snd h)) /\
  (forall l, combine_latest down h = Some l -> ends_it l -> mute (@cl_answer A1 A2 E) (map snd h)) /\
  (forall l, combine_changes down' h = Some l -> ends_it l -> mute (@cc_answer A1 A2 E) (map snd h)) /\
  (forall l, join down h = Some l -> ends_it l -> mute (@join_answer A1 A2 E) (map snd h)) /\
  (ends_it (with_latest_from down (map snd h)) -> mute (@wl_answer A1 A2 E) (map snd h)).
Proof.
  intros h max o down down' Hm HL. split; [|split; [|split; [|split]]].
  - intros l Hl. rewrite zip_told in Hl by auto. injection Hl as <-. apply ends_when_mute; auto. intros p e _. now apply zip_ends_late.
  - intros l Hl. rewrite combine_latest_told in Hl by auto. injection Hl as <-. apply ends_when_mute; auto. intros p e _. now apply cl_ends_late.
  - intros l Hl. rewrite combine_changes_told in Hl by auto. injection Hl as <-. apply ends_when_mute; auto. intros p e _. now apply cc_ends_late.
  - intros l Hl. rewrite join_told in Hl by auto. injection Hl as <-. apply ends_when_mute; auto. intros p e _. now apply join_ends_late.
  - rewrite with_latest_told by auto. intros H.
    assert (M : map snd (map (pair false) (map snd h)) = map snd h) by (rewrite map_map; apply map_id).
    rewrite <- M. eapply ends_when_mute; [intros; now apply wl_ends_late|now rewrite M|exact H].
Qed.

Lemma cl_mute_none : forall p : list event, ended (on2 p) = true -> values (on2 p) = [] -> mute (@cl_answer A1 A2 E) p.
Proof.
  intros p K V r e' HL. pose proof (only_uns _ _ _ HL) as U.
  assert (HL' : lawful (p ++ r)) by (rewrite app_assoc in HL; eapply lawful_pre; exact HL).
  destruct (no_more _ r HL') as [_ L1]. destruct e' as [n|n].
  - destruct n; try apply ends_quiet. cbn [cl_answer]. rewrite L1, V by auto. reflexivity.
  - rewrite (U K). apply ends_quiet.
Qed.
Lemma wl_mute_none : forall p : list event, ended (on2 p) = true -> values (on2 p) = [] -> mute (@wl_answer A1 A2 E) p.
Proof.
  intros p K V r e' HL. pose proof (only_uns _ _ _ HL) as U.
  assert (HL' : lawful (p ++ r)) by (rewrite app_assoc in HL; eapply lawful_pre; exact HL).
  destruct (no_more _ r HL') as [_ L1]. destruct e' as [n|n].
  - destruct n; auto. cbn [wl_answer]. rewrite L1, V by auto. reflexivity.
  - rewrite (U K). reflexivity.
Qed.
End More.
