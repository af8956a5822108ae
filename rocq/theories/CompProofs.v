(** Lemmas about components on entities: the satellites are counted, whatever was done. *)
From Coq Require Import Permutation.
From Verif Require Import Base CompModel CompSpec.
Set Implicit Arguments.

Lemma lookup_app : forall e k l c, lookup e k (l ++ [c]) =
  match lookup e k l with Some j => Some j | None => lookup e k [c] end.
Proof. intros e k l c. induction l as [|[[a b] j] l IH]; simpl; auto. rewrite IH. destruct ((a =? e) && (b =? k)); auto. Qed.
Lemma lookup_without_same : forall e k l, lookup e k (without e k l) = None.
Proof.
  induction l as [|[[a b] j] l IH]; simpl; auto.
  destruct ((a =? e) && (b =? k)) eqn:E; simpl; auto. rewrite E. auto.
Qed.
Lemma key_ne : forall a b e k e' k', (a =? e) && (b =? k) = true -> (e =? e') && (k =? k') = false ->
  (a =? e') && (b =? k') = false.
Proof.
  intros a b e k e' k' H. apply andb_true_iff in H as [H1 H2].
  apply Nat.eqb_eq in H1, H2. subst. auto.
Qed.
Lemma lookup_without_other : forall e k e' k' l, (e =? e') && (k =? k') = false ->
  lookup e' k' (without e k l) = lookup e' k' l.
Proof.
  intros e k e' k' l H. induction l as [|[[a b] j] l IH]; simpl; auto.
  destruct ((a =? e) && (b =? k)) eqn:E; simpl.
  - rewrite (key_ne _ _ _ _ _ _ E H). auto.
  - rewrite IH. auto.
Qed.
Lemma lookup_entity : forall e e' k l, lookup e' k (filter (fun c => negb (at_entity e c)) l) =
  if e =? e' then None else lookup e' k l.
Proof.
  intros e e' k l. induction l as [|[[a b] j] l IH]; simpl. { destruct (e =? e'); auto. }
  destruct (a =? e) eqn:E; simpl.
  - apply Nat.eqb_eq in E. subst. rewrite IH. destruct (e =? e') eqn:E; simpl; auto.
  - rewrite IH. destruct (e =? e') eqn:E2; simpl; auto.
    apply Nat.eqb_eq in E2. subst. rewrite E. simpl. auto.
Qed.

Lemma gone_goneb : forall h e, gone h e <-> goneb h e = true.
Proof.
  unfold gone. induction h as [|o h IH]; intros e; simpl. { split; [tauto|discriminate]. }
  destruct o; rewrite <- ?IH; try (split; [intros [H|H]; [discriminate|auto]|auto]).
  rewrite orb_true_iff, <- IH, Nat.eqb_eq. split; (intros [H|H]; [left; congruence|auto]).
Qed.
Lemma held_not_gone : forall h e k j, held h e k = Some j -> goneb h e = false.
Proof.
  induction h as [|o h IH]; intros e k j; simpl; [discriminate|]. destruct o as [e' k' i|e' k'|e'|e' ty v|e' ty d].
  - destruct ((e' =? e) && (k' =? k)).
    + destruct (goneb h e); auto. discriminate.
    + apply IH.
  - destruct ((e' =? e) && (k' =? k)); [discriminate|apply IH].
  - destruct (e' =? e); simpl; [discriminate|apply IH].
  - apply IH.
  - apply IH.
Qed.
Lemma gone_copies : forall h e k, goneb h e = true -> copies h e k = 0.
Proof.
  induction h as [|o h IH]; intros e k; simpl; [discriminate|]. destruct o as [e' k' i|e' k'|e'|e' ty v|e' ty d]; auto.
  - intros H. rewrite H. simpl. rewrite andb_false_r. auto.
  - intros H. rewrite (IH _ k H). simpl. destruct ((e' =? e) && (k' =? k) && _); auto.
  - destruct (e' =? e); simpl; auto.
Qed.
(** A component that is there has a copy. *)
Lemma held_copies : forall h e k j, held h e k = Some j -> 1 <= copies h e k.
Proof.
  induction h as [|o h IH]; intros e k j; simpl; [discriminate|]. destruct o as [e' k' i|e' k'|e'|e' ty v|e' ty d].
  - destruct ((e' =? e) && (k' =? k)); simpl; eauto.
    destruct (goneb h e); [discriminate|]. simpl. lia.
  - destruct ((e' =? e) && (k' =? k)); simpl; [discriminate|eauto].
  - destruct (e' =? e); [discriminate|eauto].
  - eauto.
  - eauto.
Qed.
Lemma careful_copies : forall h, careful h -> forall e k,
  copies h e k = match held h e k with Some _ => 1 | None => 0 end.
Proof.
  induction h as [|o h IH]; simpl; auto. destruct o as [e' k' i|e' k'|e'|e' ty v|e' ty d]; intros Hc e k.
  - destruct Hc as [Hn Hc]. rewrite (IH Hc). destruct ((e' =? e) && (k' =? k)) eqn:E; simpl; auto.
    apply andb_true_iff in E as [E1 E2]. apply Nat.eqb_eq in E1, E2. subst. rewrite Hn.
    destruct (goneb h e); auto.
  - rewrite (IH Hc). destruct ((e' =? e) && (k' =? k)) eqn:E; simpl; auto.
    destruct (held h e k); auto.
  - rewrite (IH Hc). destruct (e' =? e); auto.
  - apply IH; auto.
  - apply IH; auto.
Qed.

(** How many satellites of one sort. *)
Definition is_sat (e k : nat) (b : bool) (s : sat) : bool :=
  (s_on s =? e) && (s_kind s =? k) && eqb (s_signal s) b.
Definition many (e k : nat) (b : bool) (l : list sat) : nat := length (filter (is_sat e k b) l).

Lemma many_app : forall e k b l m, many e k b (l ++ m) = many e k b l + many e k b m.
Proof. intros. unfold many. rewrite filter_app, app_length. auto. Qed.
Lemma many_one : forall e k b i e' k' b', many e k b [mkSat i e' k' b'] =
  if (e' =? e) && (k' =? k) && eqb b' b then 1 else 0.
Proof. intros. unfold many, is_sat. simpl. destruct ((e' =? e) && (k' =? k) && eqb b' b); auto. Qed.

Lemma filter_out_absent : forall i (l : list sat), ~ In i (map s_id l) ->
  filter (fun s => negb (s_id s =? i)) l = l.
Proof.
  intros i l. induction l as [|s l IH]; simpl; auto. intros H.
  destruct (Nat.eqb_spec (s_id s) i) as [E|E]; simpl.
  - exfalso. apply H. auto.
  - rewrite IH; auto.
Qed.
Lemma many_filter_out : forall i s (l : list sat) e k b, NoDup (map s_id l) -> In s l -> s_id s = i ->
  many e k b (filter (fun s => negb (s_id s =? i)) l) + (if is_sat e k b s then 1 else 0) = many e k b l.
Proof.
  intros i s l e k b. induction l as [|x l IH]; simpl; [tauto|]. intros Hn Hi Hs.
  inversion Hn as [|y m Hx Hl]; subst. destruct (Nat.eqb_spec (s_id x) (s_id s)) as [E|E]; simpl.
  - assert (x = s) as ->.
    { destruct Hi as [Hi|Hi]; auto. exfalso. apply Hx. rewrite E. apply in_map. auto. }
    rewrite filter_out_absent by auto. unfold many at 2. simpl.
    destruct (is_sat e k b s); simpl; unfold many; lia.
  - destruct Hi as [Hi|Hi]; [congruence|]. specialize (IH Hl Hi eq_refl). unfold many in *. simpl.
    destruct (is_sat e k b x); simpl; lia.
Qed.
Lemma filter_ids_nodup : forall p (l : list sat), NoDup (map s_id l) -> NoDup (map s_id (filter p l)).
Proof.
  intros p l. induction l as [|x l IH]; simpl; auto. intros H. inversion H as [|y m Hx Hl]; subst.
  destruct (p x); simpl; auto. constructor; auto. intros Hi. apply Hx.
  apply in_map_iff in Hi as (y & <- & Hy). apply filter_In in Hy as [Hy _]. apply in_map. auto.
Qed.

Lemma key_spec : forall a e b k, reflect (a = e /\ b = k) ((a =? e) && (b =? k)).
Proof.
  intros a e b k. destruct (Nat.eqb_spec a e), (Nat.eqb_spec b k); simpl; constructor; tauto.
Qed.

Section Any.
  Variable ins : nat -> option nat.
  Variable outs : nat -> nat.
  Variable order : nat -> list sat -> list sat.
  Notation runs := (run ins outs order).

  (** Does a component of this type have satellites of this sort? *)
  Definition sorted (k : nat) (b : bool) : bool :=
    if b then match ins k with Some _ => true | None => false end else true.

  Record inv (h : list op) (w : world) : Prop := {
    i_comps : forall e k, lookup e k (w_comps w) = held h e k;
    i_keys : NoDup (map fst (w_comps w));
    i_dead : forall e, w_dead w e = goneb h e;
    i_many : forall e k b, many e k b (w_sats w) = if sorted k b then copies h e k else 0;
    i_nodup : NoDup (map s_id (w_sats w));
    i_below : forall s, In s (w_sats w) -> s_id s < w_next w;
    i_ref : forall e k b j, held h e k = Some j -> sorted k b = true ->
            exists s, In s (w_sats w) /\ w_ref w e k b = Some (s_id s) /\ is_sat e k b s = true
  }.

  Lemma i_fresh : forall h w, inv h w -> ~ In (w_next w) (map s_id (w_sats w)).
  Proof.
    intros h w I Hi. apply in_map_iff in Hi as (s & E & Hs). apply (i_below I) in Hs. lia.
  Qed.

  Lemma inv_log : forall h w l, inv h w -> inv h (log l w).
  Proof. intros h w l I. destruct I. split; simpl; auto. Qed.

  Lemma sat_eq : forall e k b s, is_sat e k b s = true -> s_on s = e /\ s_kind s = k /\ s_signal s = b.
  Proof.
    intros e k b s H. unfold is_sat in H. apply andb_true_iff in H as [H H3]. apply andb_true_iff in H as [H1 H2].
    apply Nat.eqb_eq in H1, H2. apply eqb_prop in H3. auto.
  Qed.
  Lemma sat_refl : forall e k b i, is_sat e k b (mkSat i e k b) = true.
  Proof. intros. unfold is_sat. simpl. rewrite !Nat.eqb_refl, eqb_reflx. auto. Qed.

  Lemma keys_without : forall e k l, NoDup (map fst l) -> NoDup (map fst (without e k l)).
  Proof.
    intros e k l. induction l as [|x l IH]; simpl; auto. intros H. inversion H as [|y m Hx Hl]; subst.
    destruct (negb (at_key e k x)); simpl; auto. constructor; auto. intros Hi. apply Hx.
    apply in_map_iff in Hi as (y & <- & Hy). apply filter_In in Hy as [Hy _]. apply in_map. auto.
  Qed.
  Lemma without_key : forall e k l, ~ In (e, k) (map fst (without e k l)).
  Proof.
    intros e k l Hi. apply in_map_iff in Hi as ([[a b] j] & E & Hy). simpl in E. inversion E; subst.
    apply filter_In in Hy as [_ Hy]. simpl in Hy. rewrite !Nat.eqb_refl in Hy. discriminate.
  Qed.
  Lemma keys_entity : forall (p : nat * nat * nat -> bool) l, NoDup (map fst l) -> NoDup (map fst (filter p l)).
  Proof.
    intros p l. induction l as [|x l IH]; simpl; auto. intros H. inversion H as [|y m Hx Hl]; subst.
    destruct (p x); simpl; auto. constructor; auto. intros Hi. apply Hx.
    apply in_map_iff in Hi as (y & <- & Hy). apply filter_In in Hy as [Hy _]. apply in_map. auto.
  Qed.

  Lemma nodup_snoc : forall (l : list nat) x, NoDup l -> ~ In x l -> NoDup (l ++ [x]).
  Proof.
    intros l x H1 H2. apply Permutation_NoDup with (l := x :: l).
    - apply Permutation_cons_append.
    - constructor; auto.
  Qed.

  Lemma inv_start : inv [] init.
  Proof.
    split; simpl; auto; try constructor; try tauto; try discriminate. intros e k b. unfold many; simpl.
    destruct (sorted k b); auto.
  Qed.

  Lemma inv_insert : forall h w e k j l, inv h w -> inv (OInsert e k j :: h) (insert ins outs e k j (log l w)).
  Proof.
    intros h w e k j l0 I. apply (inv_log l0) in I. set (w' := log l0 w) in *. clearbody w'. clear w.
    rename w' into w. unfold insert. rewrite (i_dead I). destruct (goneb h e) eqn:G.
    - apply inv_log. destruct I. split; simpl; auto.
      + intros e' k'. destruct (key_spec e e' k k') as [[-> ->]|N]; auto. rewrite G, i_comps0.
        destruct (held h e' k') eqn:E; auto. apply held_not_gone in E. congruence.
      + intros e' k' b. destruct (key_spec e e' k k') as [[-> ->]|N]; simpl; auto. rewrite G. simpl. auto.
      + intros e' k' b j'. destruct (key_spec e e' k k') as [[-> ->]|N]; eauto. rewrite G. discriminate.
    - pose proof (i_fresh I) as Hf.
      assert (HC : forall e' k', lookup e' k' (without e k (w_comps w) ++ [(e, k, j)]) = held (OInsert e k j :: h) e' k').
      { intros e' k'. rewrite lookup_app. simpl. destruct (key_spec e e' k k') as [[-> ->]|N].
        - rewrite lookup_without_same, G. auto.
        - rewrite lookup_without_other, (i_comps I).
          + destruct (held h e' k'); auto.
          + destruct (key_spec e e' k k'); tauto. }
      assert (HK : NoDup (map fst (without e k (w_comps w) ++ [(e, k, j)]))).
      { rewrite map_app. simpl. apply Permutation_NoDup with (l := (e, k) :: map fst (without e k (w_comps w))).
        - apply Permutation_cons_append.
        - constructor. { apply without_key. } apply keys_without, (i_keys I). }
      assert (HD : forall e', w_dead w e' = goneb (OInsert e k j :: h) e') by (simpl; apply (i_dead I)).
      unfold on_insert. destruct (ins k) as [ty|] eqn:Ek; unfold spawn; split; simpl w_comps; simpl w_sats; simpl w_ref;
        simpl w_dead; simpl w_next; try exact HC; try exact HK; try exact HD.
      + intros e' k' b. rewrite !many_app, !many_one, (i_many I). simpl copies.
        destruct (key_spec e e' k k') as [[-> ->]|N]; simpl.
        * rewrite G. simpl. unfold sorted. rewrite Ek. destruct b; simpl; lia.
        * lia.
      + rewrite !map_app. simpl. apply nodup_snoc; [apply nodup_snoc|].
        * apply (i_nodup I).
        * auto.
        * rewrite in_app_iff. simpl. intros [H|[H|[]]]; [|lia].
          apply in_map_iff in H as (s & E & Hs). apply (i_below I) in Hs. lia.
      + intros s. rewrite !in_app_iff. simpl. intros [[H|[H|[]]]|[H|[]]].
        * apply (i_below I) in H. lia.
        * subst s. simpl. lia.
        * subst s. simpl. lia.
      + intros e' k' b j'. simpl held. unfold upd3. destruct (key_spec e e' k k') as [[-> ->]|N].
        * rewrite !Nat.eqb_refl. simpl. intros _ _. destruct b; simpl.
          -- eexists. split; [apply in_or_app; right; left; reflexivity|]. split; auto. apply sat_refl.
          -- eexists. split; [apply in_or_app; left; apply in_or_app; right; left; reflexivity|]. split; auto. apply sat_refl.
        * intros H1 H2. destruct (key_spec e' e k' k) as [[-> ->]|N']; [tauto|]. simpl.
          destruct (i_ref I _ _ _ H1 H2) as (s & Hs & Hr & Hk). exists s. rewrite !in_app_iff. auto.
      + intros e' k' b. rewrite !many_app, !many_one, (i_many I). simpl copies.
        destruct (key_spec e e' k k') as [[-> ->]|N]; simpl.
        * rewrite G. simpl. unfold sorted. rewrite Ek. destruct b; simpl; lia.
        * lia.
      + rewrite !map_app. simpl. apply nodup_snoc; auto. apply (i_nodup I).
      + intros s. rewrite !in_app_iff. simpl. intros [H|[H|[]]].
        * apply (i_below I) in H. lia.
        * subst s. simpl. lia.
      + intros e' k' b j'. simpl held. unfold upd3. destruct (key_spec e e' k k') as [[-> ->]|N].
        * rewrite !Nat.eqb_refl. simpl. intros _ Hs. destruct b; simpl.
          -- unfold sorted in Hs. rewrite Ek in Hs. discriminate.
          -- eexists. split; [apply in_or_app; right; left; reflexivity|]. split; auto. apply sat_refl.
        * intros H1 H2. destruct (key_spec e' e k' k) as [[-> ->]|N']; [tauto|]. simpl.
          destruct (i_ref I _ _ _ H1 H2) as (s & Hs & Hr & Hk). exists s. rewrite !in_app_iff. auto.
  Qed.

  Lemma inv_remove : forall h w e k l, inv h w -> inv (ORemove e k :: h) (remove ins outs e k (log l w)).
  Proof.
    intros h w e k l0 I. apply (inv_log l0) in I. set (w' := log l0 w) in *. clearbody w'. clear w.
    rename w' into w. unfold remove. rewrite (i_comps I). destruct (held h e k) as [j|] eqn:Eh.
    - destruct (i_ref I _ _ false Eh eq_refl) as (s0 & Hs0 & Hr0 & Hk0).
      set (w1 := log [ended ins (e, k, j)] w).
      destruct (sat_eq _ _ _ _ Hk0) as (A1 & A2 & A3).
      pose (w2 := mkW (w_comps w) (filter (fun s => negb (s_id s =? s_id s0)) (w_sats w))
                     (upd3 (w_ref w) e k false None) (w_outputs w) (w_dead w) (w_next w) (w_tr w1)).
      assert (E2 : despawn_ref e k false w1 = w2).
      { unfold despawn_ref. simpl. rewrite Hr0. auto. }
      rewrite E2. clear E2.
      assert (Hn2 : NoDup (map s_id (w_sats w2))) by (apply filter_ids_nodup, (i_nodup I)).
      assert (Hm2 : forall e' k' b, many e' k' b (w_sats w2) + (if is_sat e' k' b s0 then 1 else 0) = many e' k' b (w_sats w)).
      { intros. apply many_filter_out; auto. apply (i_nodup I). }
      assert (Hkeep : forall e' k' b s, In s (w_sats w) -> is_sat e' k' b s = true ->
                ((e =? e') && (k =? k') = false \/ b = true) -> In s (w_sats w2)).
      { intros e' k' b s Hs Hk Hd. simpl. apply filter_In. split; auto.
        destruct (Nat.eqb_spec (s_id s) (s_id s0)) as [E|E]; auto. exfalso.
        assert (s = s0) as ->.
        { clear - E Hs Hs0 I. pose proof (i_nodup I) as Hn. induction (w_sats w) as [|x r IH]; [destruct Hs|].
          simpl in Hn. inversion Hn as [|y m Hx Hl]; subst. destruct Hs as [->|Hs], Hs0 as [->|Hs0]; auto.
          - exfalso. apply Hx. rewrite E. apply in_map. auto.
          - exfalso. apply Hx. rewrite <- E. apply in_map. auto. }
        destruct (sat_eq _ _ _ _ Hk) as (B1 & B2 & B3).
        destruct Hd as [Hd|Hd]; [|congruence]. destruct (key_spec e e' k k') as [|N]; [discriminate|]. apply N. split; congruence. }
      destruct (ins k) as [ty|] eqn:Ek.
      + assert (Hst : sorted k true = true) by (unfold sorted; rewrite Ek; auto).
        destruct (i_ref I _ _ true Eh Hst) as (s1 & Hs1 & Hr1 & Hk1).
        destruct (sat_eq _ _ _ _ Hk1) as (C1 & C2 & C3).
        assert (E3 : despawn_ref e k true w2 = mkW (w_comps w) (filter (fun s => negb (s_id s =? s_id s1)) (w_sats w2))
                     (upd3 (w_ref w2) e k true None) (w_outputs w) (w_dead w) (w_next w) (w_tr w1)).
        { unfold despawn_ref. simpl. unfold upd3 at 1. rewrite !Nat.eqb_refl. simpl. rewrite Hr1. auto. }
        rewrite E3. clear E3.
        assert (Hs1' : In s1 (w_sats w2)). { apply (Hkeep e k true); auto. }
        assert (Hm3 : forall e' k' b, many e' k' b (filter (fun s => negb (s_id s =? s_id s1)) (w_sats w2)) +
                     (if is_sat e' k' b s1 then 1 else 0) = many e' k' b (w_sats w2)).
        { intros. apply many_filter_out; auto. }
        split; simpl w_comps; simpl w_sats; simpl w_ref; simpl w_dead; simpl w_next.
        * intros e' k'. simpl. destruct (key_spec e e' k k') as [[-> ->]|N].
          -- apply lookup_without_same.
          -- rewrite lookup_without_other. { apply (i_comps I). } destruct (key_spec e e' k k'); tauto.
        * apply keys_without, (i_keys I).
        * simpl. apply (i_dead I).
        * intros e' k' b. specialize (Hm3 e' k' b). specialize (Hm2 e' k' b). simpl copies.
          change (filter (fun s => negb (s_id s =? s_id s0)) (w_sats w)) with (w_sats w2).
          unfold is_sat in Hm2, Hm3. rewrite (i_many I) in Hm2.
          rewrite A1, A2, A3 in Hm2. rewrite C1, C2, C3 in Hm3.
          destruct (key_spec e e' k k') as [[-> ->]|N]; simpl in *.
          -- rewrite Eh. unfold sorted in *. rewrite Ek in *. pose proof (held_copies _ _ _ Eh) as HC.
             destruct b; simpl in *; lia.
          -- lia.
        * apply filter_ids_nodup. auto.
        * intros s Hs. apply filter_In in Hs as [Hs _]. apply filter_In in Hs as [Hs _]. apply (i_below I); auto.
        * intros e' k' b j'. simpl held. destruct (key_spec e e' k k') as [[-> ->]|N]; [discriminate|].
          intros H1 H2. destruct (i_ref I _ _ _ H1 H2) as (s & Hs & Hr & Hk). exists s. split; [|split; auto].
          -- apply filter_In. split.
             ++ apply (Hkeep e' k' b); auto. left. destruct (key_spec e e' k k'); tauto.
             ++ destruct (Nat.eqb_spec (s_id s) (s_id s1)) as [E|E]; auto. exfalso.
                assert (s = s1) as ->.
                { clear - E Hs Hs1 I. pose proof (i_nodup I) as Hn. induction (w_sats w) as [|x r IH]; [destruct Hs|].
                  simpl in Hn. inversion Hn as [|y m Hx Hl]; subst. destruct Hs as [->|Hs], Hs1 as [->|Hs1]; auto.
                  - exfalso. apply Hx. rewrite E. apply in_map. auto.
                  - exfalso. apply Hx. rewrite <- E. apply in_map. auto. }
                destruct (sat_eq _ _ _ _ Hk) as (B1 & B2 & B3). apply N. split; congruence.
          -- unfold w2. simpl. unfold upd3. destruct (key_spec e' e k' k) as [[-> ->]|N']; [tauto|]. simpl. auto.
      + split; simpl w_comps; simpl w_sats; simpl w_ref; simpl w_dead; simpl w_next.
        * intros e' k'. simpl. destruct (key_spec e e' k k') as [[-> ->]|N].
          -- apply lookup_without_same.
          -- rewrite lookup_without_other. { apply (i_comps I). } destruct (key_spec e e' k k'); tauto.
        * apply keys_without, (i_keys I).
        * simpl. apply (i_dead I).
        * intros e' k' b. specialize (Hm2 e' k' b). simpl copies.
          change (filter (fun s => negb (s_id s =? s_id s0)) (w_sats w)) with (w_sats w2).
          unfold is_sat in Hm2. rewrite (i_many I) in Hm2. rewrite A1, A2, A3 in Hm2.
          destruct (key_spec e e' k k') as [[-> ->]|N]; simpl in *.
          -- rewrite Eh. unfold sorted in *. rewrite Ek in *. pose proof (held_copies _ _ _ Eh) as HC.
             destruct b; simpl in *; lia.
          -- lia.
        * auto.
        * intros s Hs. apply filter_In in Hs as [Hs _]. apply (i_below I); auto.
        * intros e' k' b j'. simpl held. destruct (key_spec e e' k k') as [[-> ->]|N]; [discriminate|].
          intros H1 H2. destruct (i_ref I _ _ _ H1 H2) as (s & Hs & Hr & Hk). exists s. split; [|split; auto].
          -- apply (Hkeep e' k' b); auto. left. destruct (key_spec e e' k k'); tauto.
          -- unfold upd3. destruct (key_spec e' e k' k) as [[-> ->]|N']; [tauto|]. simpl. auto.
    - destruct I. split; simpl; auto.
      + intros e' k'. destruct (key_spec e e' k k') as [[-> ->]|N]; auto. rewrite i_comps0. auto.
      + intros e' k' b. destruct (key_spec e e' k k') as [[-> ->]|N]; simpl; auto. rewrite Eh. simpl. auto.
      + intros e' k' b j'. destruct (key_spec e e' k k') as [[-> ->]|N]; eauto. discriminate.
  Qed.
End Any.
