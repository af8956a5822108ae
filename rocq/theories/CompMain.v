(** What components on entities tell. *)
From Coq Require Import Permutation.
From Verif Require Import Base CompModel CompSpec CompProofs.
Set Implicit Arguments.
Local Arguments ev_eq_dec : simpl never.
Local Arguments times : simpl never.
Local Arguments ended : simpl never.

Lemma filter_filter : forall {X} (p q : X -> bool) l, filter p (filter q l) = filter (fun x => q x && p x) l.
Proof.
  intros X p q l. induction l as [|x l IH]; simpl; auto. destruct (q x); simpl; auto.
  destruct (p x); congruence.
Qed.
Lemma filter_none : forall {X} (p : X -> bool) l, (forall x, In x l -> p x = false) -> filter p l = [].
Proof.
  intros X p l. induction l as [|x l IH]; simpl; auto. intros H. rewrite (H x) by auto. auto.
Qed.
Lemma perm_filter : forall {X} (p : X -> bool) l m, Permutation l m -> Permutation (filter p l) (filter p m).
Proof.
  intros X p l m H. induction H; simpl; auto.
  - destruct (p x); auto.
  - destruct (p x), (p y); auto. apply perm_swap.
  - eapply perm_trans; eauto.
Qed.
Lemma length_zero : forall {X} (l : list X), length l = 0 -> l = [].
Proof. intros X [|x l]; simpl; auto. discriminate. Qed.

Lemma many_despawn : forall e e' k b l, many e' k b (filter (fun s => negb (s_on s =? e)) l) =
  if e =? e' then 0 else many e' k b l.
Proof.
  intros e e' k b l. unfold many. rewrite filter_filter. destruct (Nat.eqb_spec e e') as [->|N].
  - rewrite filter_none; auto. intros s _. unfold is_sat. destruct (s_on s =? e'); auto.
  - f_equal. apply filter_ext. intros s. unfold is_sat.
    destruct (Nat.eqb_spec (s_on s) e) as [E|E]; auto. simpl.
    destruct (Nat.eqb_spec (s_on s) e') as [E'|E']; auto. congruence.
Qed.

Section Main.
  Variable ins : nat -> option nat.
  Variable outs : nat -> nat.
  Variable order : nat -> list sat -> list sat.
  Hypothesis fair_order : fair order.
  Notation runs := (run ins outs order).
  Notation traces := (trace ins outs order).
  Notation tolds := (told ins outs order).

  Lemma inv_despawn : forall h w e l, inv ins h w -> inv ins (ODespawn e :: h) (despawn ins e (log l w)).
  Proof.
    intros h w e l0 I. apply (inv_log l0) in I. set (w' := log l0 w) in *. clearbody w'. clear w.
    rename w' into w. destruct I. split; simpl.
    - intros e' k. rewrite lookup_entity, i_comps. auto.
    - apply keys_entity. auto.
    - intros e'. rewrite i_dead, (Nat.eqb_sym e' e). destruct (e =? e'); auto.
    - intros e' k b. rewrite many_despawn, i_many. destruct (e =? e'); auto. destruct (sorted ins k b); auto.
    - apply filter_ids_nodup. auto.
    - intros s Hs. apply filter_In in Hs as [Hs _]. auto.
    - intros e' k b j H1 H2. destruct (Nat.eqb_spec e e') as [E|N]; [discriminate|].
      destruct (i_ref e' k b j H1 H2) as (s & Hs & Hr & Hk). exists s. split; [|split; auto].
      + apply filter_In. split; auto. destruct (sat_eq _ _ _ _ Hk) as (E & _). rewrite E.
        destruct (Nat.eqb_spec e' e); [congruence|auto].
      + destruct (Nat.eqb_spec e' e); [congruence|auto].
  Qed.

  Theorem inv_run : forall h, inv ins h (runs h).
  Proof.
    induction h as [|o h IH]; simpl. { apply inv_start. }
    destruct o as [e k j|e k|e|e ty v|e ty d]; unfold perform; cbv zeta.
    - apply inv_insert; auto.
    - apply inv_remove; auto.
    - apply inv_despawn; auto.
    - do 2 apply inv_log. destruct IH; split; auto.
    - do 2 apply inv_log. destruct IH; split; auto.
  Qed.

  (** What an operation tells, in the world before. *)
  Definition tells (n : nat) (o : op) (w : world) : list ev :=
    match o with
    | OInsert e k j =>
        if w_dead w e then [TFail e k j]
        else match lookup e k (w_comps w) with Some i => [TDrop e k i] | None => [] end
    | ORemove e k => match lookup e k (w_comps w) with Some j => [ended ins (e, k, j)] | None => [] end
    | ODespawn e => map (ended ins) (filter (at_entity e) (w_comps w))
    | OSignal e ty v => flat_map (push_signal e v w) (order n (filter (hears_signal ins e ty) (w_sats w)))
    | OSub e ty d => subscribe d e (order n (filter (hears_subscribe outs e ty) (w_sats w))) w
    end.
  Lemma despawn_ref_tr : forall e k b w, w_tr (despawn_ref e k b w) = w_tr w.
  Proof. intros. unfold despawn_ref. destruct (w_ref w e k b); auto. Qed.
  Lemma trace_cons : forall o h, traces (o :: h) = traces h ++ TOp o :: tells (length h) o (runs h).
  Proof.
    intros o h. unfold trace. simpl. set (w := runs h). clearbody w. set (n := length h). clearbody n.
    destruct o as [e k j|e k|e|e ty v|e ty d]; unfold perform; cbv zeta; simpl.
    - unfold insert. simpl. destruct (w_dead w e); simpl. { rewrite <- app_assoc. auto. }
      unfold on_insert. destruct (ins k); simpl; rewrite <- app_assoc; auto.
    - unfold remove. simpl. destruct (lookup e k (w_comps w)) as [j|]; simpl.
      + destruct (ins k); rewrite !despawn_ref_tr; simpl; rewrite <- !app_assoc; auto.
      + auto.
    - rewrite <- app_assoc. auto.
    - rewrite <- app_assoc. auto.
    - rewrite <- app_assoc. auto.
  Qed.
  Lemma told_cons : forall o h, tolds (o :: h) = tells (length h) o (runs h).
  Proof.
    intros o h. unfold told. rewrite trace_cons.
    replace (S (length (traces h))) with (length (traces h ++ [TOp o])) by (rewrite app_length; simpl; lia).
    change (TOp o :: tells (length h) o (runs h)) with ([TOp o] ++ tells (length h) o (runs h)).
    rewrite app_assoc, skipn_app, Nat.sub_diag, skipn_all. auto.
  Qed.
  Lemma trace_told : forall o h, traces (o :: h) = traces h ++ TOp o :: tolds (o :: h).
  Proof. intros. rewrite told_cons. apply trace_cons. Qed.

  Notation lsig h e ty := (order (length h) (filter (hears_signal ins e ty) (w_sats (runs h)))).
  Notation lsub h e ty := (order (length h) (filter (hears_subscribe outs e ty) (w_sats (runs h)))).

  Lemma in_lsig : forall h e ty s, In s (lsig h e ty) <->
    In s (w_sats (runs h)) /\ s_signal s = true /\ s_on s = e /\ ins (s_kind s) = Some ty.
  Proof.
    intros h e ty s. split.
    - intros H. apply (Permutation_in _ (fair_order _ _)) in H. apply filter_In in H as [H1 H2].
      unfold hears_signal in H2. apply andb_true_iff in H2 as [H2 H3]. apply andb_true_iff in H2 as [H2 H4].
      apply Nat.eqb_eq in H4. destruct (ins (s_kind s)) as [t|]; [|discriminate]. apply Nat.eqb_eq in H3. subst. auto.
    - intros (H1 & H2 & H3 & H4). apply (Permutation_in _ (Permutation_sym (fair_order _ _))). apply filter_In.
      split; auto. unfold hears_signal. rewrite H2, H3, H4, !Nat.eqb_refl. auto.
  Qed.
  Lemma in_lsub : forall h e ty s, In s (lsub h e ty) <->
    In s (w_sats (runs h)) /\ s_signal s = false /\ s_on s = e /\ outs (s_kind s) = ty.
  Proof.
    intros h e ty s. split.
    - intros H. apply (Permutation_in _ (fair_order _ _)) in H. apply filter_In in H as [H1 H2].
      unfold hears_subscribe in H2. apply andb_true_iff in H2 as [H2 H3]. apply andb_true_iff in H2 as [H2 H4].
      apply Nat.eqb_eq in H3, H4. destruct (s_signal s); [discriminate|]. auto.
    - intros (H1 & H2 & H3 & H4). apply (Permutation_in _ (Permutation_sym (fair_order _ _))). apply filter_In.
      split; auto. unfold hears_subscribe. rewrite H2, H3, H4, !Nat.eqb_refl. auto.
  Qed.
  Lemma many_in : forall s l, In s l -> 1 <= many (s_on s) (s_kind s) (s_signal s) l.
  Proof.
    intros s l H. unfold many. destruct (filter _ l) as [|x r] eqn:E; [|simpl; lia].
    exfalso. assert (Hi : In s (filter (is_sat (s_on s) (s_kind s) (s_signal s)) l)).
    { apply filter_In. split; auto. unfold is_sat. rewrite !Nat.eqb_refl, eqb_reflx. auto. }
    rewrite E in Hi. destruct Hi.
  Qed.
  Lemma sat_copies : forall h s, In s (w_sats (runs h)) -> 1 <= copies h (s_on s) (s_kind s).
  Proof.
    intros h s Hs. pose proof (many_in s _ Hs) as H. rewrite (i_many (inv_run h)) in H.
    destruct (sorted ins (s_kind s) (s_signal s)); lia.
  Qed.
  Lemma copies_sat : forall h e k, 1 <= copies h e k ->
    exists s, In s (w_sats (runs h)) /\ s_on s = e /\ s_kind s = k /\ s_signal s = false.
  Proof.
    intros h e k H. pose proof (i_many (inv_run h) e k false) as M. simpl in M. unfold many in M.
    destruct (filter (is_sat e k false) (w_sats (runs h))) as [|s r] eqn:E; simpl in M; [lia|].
    exists s. assert (Hi : In s (filter (is_sat e k false) (w_sats (runs h)))) by (rewrite E; left; auto).
    apply filter_In in Hi as [Hi Hk]. apply sat_eq in Hk. tauto.
  Qed.

  (** * Signals *)
  Lemma times_flat : forall e v w k j l, lookup e k (w_comps w) = Some j ->
    times (TPush e k j v) (flat_map (push_signal e v w) l) = length (filter (fun s => s_kind s =? k) l).
  Proof.
    intros e v w k j l H. unfold times. induction l as [|s l IH]; simpl; auto.
    rewrite count_occ_app, IH. unfold push_signal. destruct (Nat.eqb_spec (s_kind s) k) as [E|E].
    - rewrite E, H. simpl. destruct (ev_eq_dec _ _); [auto|congruence].
    - destruct (lookup e (s_kind s) (w_comps w)); simpl; auto. destruct (ev_eq_dec _ _) as [Q|Q]; auto.
      inversion Q. congruence.
  Qed.
  Theorem pushes : forall h e ty v k j, held h e k = Some j -> ins k = Some ty ->
    times (TPush e k j v) (tolds (OSignal e ty v :: h)) = copies h e k.
  Proof.
    intros h e ty v k j Hh Hk. rewrite told_cons. simpl. pose proof (inv_run h) as I.
    rewrite times_flat by (rewrite (i_comps I); auto).
    rewrite (Permutation_length (perm_filter _ (fair_order _ _))), filter_filter.
    pose proof (i_many I e k true) as M. simpl in M. rewrite Hk in M. rewrite <- M. unfold many. f_equal.
    apply filter_ext. intros s. unfold hears_signal, is_sat.
    destruct (Nat.eqb_spec (s_kind s) k) as [E|E].
    - rewrite E, Hk, Nat.eqb_refl. destruct (s_signal s), (s_on s =? e); auto.
    - rewrite !andb_false_r. auto.
  Qed.
  Theorem pushes_only : forall h e ty v x, In x (tolds (OSignal e ty v :: h)) ->
    exists k j, x = TPush e k j v /\ ins k = Some ty /\ held h e k = Some j.
  Proof.
    intros h e ty v x. rewrite told_cons. simpl. intros H. apply in_flat_map in H as (s & Hs & Hx).
    apply in_lsig in Hs as (H1 & H2 & H3 & H4). unfold push_signal in Hx.
    rewrite (i_comps (inv_run h)) in Hx. destruct (held h e (s_kind s)) as [j|] eqn:E; [|destruct Hx].
    destruct Hx as [<-|[]]. eauto.
  Qed.
  Theorem signal : forall h e ty v, careful h ->
    (forall k j, held h e k = Some j -> ins k = Some ty -> times (TPush e k j v) (tolds (OSignal e ty v :: h)) = 1) /\
    (forall x, In x (tolds (OSignal e ty v :: h)) ->
       exists k j, x = TPush e k j v /\ ins k = Some ty /\ held h e k = Some j).
  Proof.
    intros h e ty v Hc. split.
    - intros k j Hh Hk. rewrite (pushes h e v Hh Hk), (careful_copies _ Hc), Hh. auto.
    - apply pushes_only.
  Qed.

  (** * Subscriptions *)
  Theorem sub_none : forall h e ty d, (forall k, outs k = ty -> copies h e k = 0) ->
    tolds (OSub e ty d :: h) = [TWait d].
  Proof.
    intros h e ty d H. rewrite told_cons. simpl. destruct (lsub h e ty) as [|s r] eqn:E; auto.
    exfalso. assert (Hi : In s (lsub h e ty)) by (rewrite E; left; auto).
    apply in_lsub in Hi as (H1 & H2 & H3 & H4). apply sat_copies in H1. rewrite H3, (H _ H4) in H1. lia.
  Qed.
  Theorem sub_some : forall h e ty d k, outs k = ty -> 1 <= copies h e k ->
    exists x r, tolds (OSub e ty d :: h) = x :: r /\
      ((exists k' j', x = TSub e k' j' d /\ outs k' = ty /\ held h e k' = Some j') \/
       (exists k', x = TNot e k' d /\ outs k' = ty /\ held h e k' = None /\ 1 <= copies h e k')) /\
      (forall y, In y r -> exists k', y = TConsumed e k' d /\ outs k' = ty).
  Proof.
    intros h e ty d k Hk Hn. rewrite told_cons. simpl.
    destruct (copies_sat _ _ _ Hn) as (s0 & A1 & A2 & A3 & A4).
    assert (H0 : In s0 (lsub h e ty)) by (apply in_lsub; subst; auto).
    assert (HL : forall s, In s (lsub h e ty) -> outs (s_kind s) = ty /\ 1 <= copies h e (s_kind s)).
    { intros s Hs. apply in_lsub in Hs as (H1 & H2 & H3 & H4). apply sat_copies in H1. rewrite H3 in H1. auto. }
    destruct (lsub h e ty) as [|s r]; [destruct H0|]. simpl. eexists. eexists. split; [reflexivity|]. split.
    - unfold first_subscribe. rewrite (i_comps (inv_run h)). destruct (HL s (or_introl eq_refl)) as [B1 B2].
      destruct (held h e (s_kind s)) as [j|] eqn:E; [left|right]; eauto 8.
    - intros y Hy. apply in_map_iff in Hy as (s' & <- & Hs'). exists (s_kind s'). split; auto.
      apply HL. right. auto.
  Qed.
  Theorem subscribe_none : forall h e ty d, careful h -> (forall k, outs k = ty -> held h e k = None) ->
    tolds (OSub e ty d :: h) = [TWait d].
  Proof. intros h e ty d Hc H. apply sub_none. intros k Hk. rewrite (careful_copies _ Hc), H; auto. Qed.
  Theorem subscribe_some : forall h e ty d k j, careful h -> outs k = ty -> held h e k = Some j ->
    exists k' j' r, tolds (OSub e ty d :: h) = TSub e k' j' d :: r /\ outs k' = ty /\ held h e k' = Some j' /\
      (forall y, In y r -> exists k', y = TConsumed e k' d).
  Proof.
    intros h e ty d k j Hc Hk Hh.
    destruct (sub_some h e d Hk (held_copies _ _ _ Hh)) as (x & r & E & H1 & H2). rewrite E.
    destruct H1 as [(k' & j' & -> & B1 & B2)|(k' & -> & B1 & B2 & B3)].
    - exists k', j', r. repeat split; auto. intros y Hy. destruct (H2 y Hy) as (k2 & -> & _). eauto.
    - rewrite (careful_copies _ Hc), B2 in B3. lia.
  Qed.
  Theorem subscribe_one : forall h e ty d k j, careful h -> outs k = ty -> held h e k = Some j ->
    (forall k', outs k' = ty -> held h e k' <> None -> k' = k) ->
    tolds (OSub e ty d :: h) = [TSub e k j d].
  Proof.
    intros h e ty d k j Hc Hk Hh Hu. rewrite told_cons. simpl.
    assert (HL : forall s, In s (lsub h e ty) -> s_kind s = k).
    { intros s Hs. apply in_lsub in Hs as (H1 & H2 & H3 & H4). apply Hu; auto. apply sat_copies in H1. rewrite H3 in H1.
      rewrite (careful_copies _ Hc) in H1. destruct (held h e (s_kind s)); [discriminate|lia]. }
    assert (Hlen : length (lsub h e ty) = 1).
    { rewrite (Permutation_length (fair_order _ _)). pose proof (i_many (inv_run h) e k false) as M. simpl in M.
      rewrite (careful_copies _ Hc), Hh in M. rewrite <- M. unfold many. f_equal. apply filter_ext_in. intros s Hs.
      unfold hears_subscribe, is_sat. destruct (s_signal s) eqn:E1; simpl. { rewrite andb_false_r. auto. }
      destruct (Nat.eqb_spec (s_on s) e) as [E2|E2]; simpl; auto.
      destruct (Nat.eqb_spec (s_kind s) k) as [E3|E3]; simpl.
      - rewrite E3. apply Nat.eqb_eq. auto.
      - apply Nat.eqb_neq. intros E4. apply E3. apply HL. apply in_lsub. auto. }
    destruct (lsub h e ty) as [|s [|s' r]]; simpl in Hlen; try lia. simpl.
    unfold first_subscribe. rewrite (HL s) by (left; auto). rewrite (i_comps (inv_run h)), Hh. auto.
  Qed.

  (** * Ends *)
  Theorem removed : forall h e k, tolds (ORemove e k :: h) =
    match held h e k with Some j => [if subject ins k then TUnsub e k j else TFree e k j] | None => [] end.
  Proof.
    intros h e k. rewrite told_cons. simpl. rewrite (i_comps (inv_run h)). unfold subject, ended.
    destruct (held h e k); auto. destruct (ins k); auto.
  Qed.

  Definition here (h : list op) (e k j : nat) : nat :=
    match held h e k with Some i => if i =? j then 1 else 0 | None => 0 end.

  Lemma lookup_none_in : forall e k l, lookup e k l = None -> forall j, ~ In (e, k, j) l.
  Proof.
    intros e k l. induction l as [|[[a b] i] l IH]; simpl; [tauto|]. intros H j.
    destruct (key_spec a e b k) as [|N]; [discriminate|]. intros [E|E]; [inversion E; tauto|]. eapply IH; eauto.
  Qed.
  Lemma times_ended : forall e' l e k j, NoDup (map fst l) -> subject ins k = true ->
    times (TUnsub e k j) (map (ended ins) (filter (at_entity e') l)) =
    if e' =? e then match lookup e k l with Some i => if i =? j then 1 else 0 | None => 0 end else 0.
  Proof.
    intros e' l e k j Hn Hs. unfold times. induction l as [|[[a b] i] l IH]; simpl. { destruct (e' =? e); auto. }
    simpl in Hn. inversion Hn as [|x m Hx Hl]; subst. specialize (IH Hl).
    assert (Hnone : a = e -> b = k -> lookup e k l = None).
    { intros -> ->. destruct (lookup e k l) as [y|] eqn:E; auto. exfalso. apply Hx. clear - E.
      induction l as [|[[a b] i] l IH]; simpl in *; [discriminate|].
      destruct (key_spec a e b k) as [[-> ->]|N]; auto. }
    destruct (Nat.eqb_spec a e') as [Ea|Ea].
    - cbn [map count_occ]. subst a. destruct (key_spec e' e b k) as [[-> ->]|N].
      + rewrite Nat.eqb_refl in *. rewrite (Hnone eq_refl eq_refl) in IH. 
        assert (Ee : ended ins (e, k, i) = TUnsub e k i).
        { unfold ended. unfold subject in Hs. destruct (ins k); [auto|discriminate]. }
        rewrite Ee. destruct (Nat.eqb_spec i j) as [->|N'].
        * destruct (ev_eq_dec _ _); [|congruence]. rewrite IH. auto.
        * destruct (ev_eq_dec _ _) as [Q|Q]; [inversion Q; congruence|]. auto.
      + assert (ended ins (e', b, i) <> TUnsub e k j).
        { unfold ended. destruct (ins b); [|discriminate]. intros Q. inversion Q. tauto. }
        destruct (ev_eq_dec _ _) as [Q|Q]; [tauto|]. auto.
    - rewrite IH. destruct (key_spec a e b k) as [[-> ->]|N]; auto.
      destruct (Nat.eqb_spec e' e); auto. congruence.
  Qed.
  Theorem despawned : forall h e k j, subject ins k = true -> held h e k = Some j ->
    times (TUnsub e k j) (tolds (ODespawn e :: h)) = 1.
  Proof.
    intros h e k j Hs Hh. rewrite told_cons. simpl. rewrite times_ended; auto.
    - rewrite Nat.eqb_refl, (i_comps (inv_run h)), Hh, Nat.eqb_refl. auto.
    - apply (i_keys (inv_run h)).
  Qed.

  Lemma times_app : forall x l m, times x (l ++ m) = times x l + times x m.
  Proof. intros. apply count_occ_app. Qed.
  Lemma times_cons_ne : forall x y l, y <> x -> times x (y :: l) = times x l.
  Proof. intros. apply count_occ_cons_neq. auto. Qed.
  Lemma times_zero : forall x l, (forall y, In y l -> y <> x) -> times x l = 0.
  Proof. intros x l H. apply count_occ_not_In. intros Hi. apply (H _ Hi). auto. Qed.

  Lemma times_one : forall x y, times x [y] = if ev_eq_dec y x then 1 else 0.
  Proof. intros. unfold times. simpl. destruct (ev_eq_dec y x); auto. Qed.

  Theorem balance : forall h e k j, subject ins k = true ->
    inserted h e k j = times (TUnsub e k j) (traces h) + times (TDrop e k j) (traces h) + here h e k j.
  Proof.
    intros h e k j Hs. induction h as [|o h IH]; auto. rewrite trace_told, !times_app, !times_cons_ne by discriminate.
    pose proof (inv_run h) as I. rewrite told_cons.
    destruct o as [e' k' i|e' k'|e'|e' ty v|e' ty d]; simpl tells; simpl inserted; rewrite IH; clear IH; unfold here; simpl held.
    - rewrite (i_dead I), (i_comps I). destruct (key_spec e' e k' k) as [[-> ->]|N]; simpl.
      + destruct (goneb h e) eqn:G; simpl.
        * rewrite andb_false_r. rewrite (times_zero (x := TUnsub e k j) [TFail e k i]), (times_zero (x := TDrop e k j) [TFail e k i])
            by (intros y [<-|[]]; discriminate).
          destruct (held h e k) eqn:E; [apply held_not_gone in E; congruence|]. lia.
        * rewrite andb_true_r. destruct (held h e k) as [y|] eqn:E.
          -- rewrite (times_zero (x := TUnsub e k j) [TDrop e k y]) by (intros z [<-|[]]; discriminate).
             rewrite times_one. destruct (ev_eq_dec _ _) as [Q|Q].
             ++ inversion Q; subst. rewrite Nat.eqb_refl. destruct (i =? j); lia.
             ++ destruct (Nat.eqb_spec y j) as [->|]; [congruence|]. destruct (i =? j); lia.
          -- change (times (TUnsub e k j) []) with 0. change (times (TDrop e k j) []) with 0. destruct (i =? j); lia.
      + assert (X : forall y, In y (if goneb h e' then [TFail e' k' i] else match held h e' k' with Some z => [TDrop e' k' z] | None => [] end) ->
                    y <> TUnsub e k j /\ y <> TDrop e k j).
        { intros y. destruct (goneb h e'). { intros [<-|[]]. split; discriminate. }
          destruct (held h e' k'); [|intros []]. intros [<-|[]]. split; [discriminate|]. intros Q. inversion Q. tauto. }
        rewrite (times_zero _ (fun y Hy => proj1 (X y Hy))), (times_zero _ (fun y Hy => proj2 (X y Hy))). lia.
    - rewrite (i_comps I). destruct (key_spec e' e k' k) as [[-> ->]|N]; simpl.
      + destruct (held h e k) as [y|] eqn:E.
        2: { change (times (TUnsub e k j) []) with 0. change (times (TDrop e k j) []) with 0. lia. }
        unfold subject in Hs. unfold ended.
        destruct (ins k) eqn:Ek; [|discriminate].
        rewrite (times_zero (x := TDrop e k j) [TUnsub e k y]) by (intros z [<-|[]]; discriminate).
        rewrite times_one. destruct (ev_eq_dec _ _) as [Q|Q].
        * inversion Q; subst. rewrite Nat.eqb_refl. lia.
        * destruct (Nat.eqb_spec y j) as [->|]; [congruence|]. lia.
      + assert (X : forall y, In y (match held h e' k' with Some z => [ended ins (e', k', z)] | None => [] end) ->
                    y <> TUnsub e k j /\ y <> TDrop e k j).
        { intros y. destruct (held h e' k'); [|intros []]. intros [<-|[]]. unfold ended. destruct (ins k'); split; try discriminate.
          intros Q. inversion Q. tauto. }
        rewrite (times_zero _ (fun y Hy => proj1 (X y Hy))), (times_zero _ (fun y Hy => proj2 (X y Hy))). lia.
    - rewrite (times_zero (x := TDrop e k j) (map (ended ins) (filter (at_entity e') (w_comps (runs h))))).
      2: { intros y Hy. apply in_map_iff in Hy as ([[a b] z] & <- & _). unfold ended. destruct (ins b); discriminate. }
      rewrite times_ended; auto; [|apply (i_keys I)]. rewrite (i_comps I).
      destruct (e' =? e); destruct (held h e k) as [y|]; try destruct (y =? j); lia.
    - assert (X : forall y, In y (flat_map (push_signal e' v (runs h)) (lsig h e' ty)) ->
                  y <> TUnsub e k j /\ y <> TDrop e k j).
      { intros y Hy. apply in_flat_map in Hy as (s & _ & Hy). unfold push_signal in Hy.
        destruct (lookup e' (s_kind s) (w_comps (runs h))); [|destruct Hy]. destruct Hy as [<-|[]]. split; discriminate. }
      rewrite (times_zero _ (fun y Hy => proj1 (X y Hy))), (times_zero _ (fun y Hy => proj2 (X y Hy))). lia.
    - assert (X : forall y, In y (subscribe d e' (lsub h e' ty) (runs h)) -> y <> TUnsub e k j /\ y <> TDrop e k j).
      { intros y. destruct (lsub h e' ty) as [|s r]; simpl. { intros [<-|[]]. split; discriminate. }
        intros [<-|Hy].
        - unfold first_subscribe. destruct (lookup e' (s_kind s) (w_comps (runs h))); split; discriminate.
        - apply in_map_iff in Hy as (s' & <- & _). split; discriminate. }
      rewrite (times_zero _ (fun y Hy => proj1 (X y Hy))), (times_zero _ (fun y Hy => proj2 (X y Hy))). lia.
  Qed.
  Theorem no_drop : forall h e k j, careful h -> ~ In (TDrop e k j) (traces h).
  Proof.
    intros h e k j. induction h as [|o h IH]; auto. rewrite trace_told, in_app_iff.
    intros Hc [H|[H|H]]; [|discriminate|]. { apply IH; auto. destruct o; simpl in Hc; tauto. }
    rewrite told_cons in H. pose proof (inv_run h) as I.
    destruct o as [e' k' i|e' k'|e'|e' ty v|e' ty d]; simpl in H.
    - simpl in Hc. destruct (w_dead (runs h) e'). { destruct H as [H|[]]; discriminate. }
      rewrite (i_comps I) in H. destruct Hc as [Hn _]. rewrite Hn in H. destruct H.
    - destruct (lookup e' k' (w_comps (runs h))); [|destruct H]. destruct H as [H|[]]. unfold ended in H. destruct (ins k'); discriminate.
    - apply in_map_iff in H as ([[a b] z] & Q & _). unfold ended in Q. destruct (ins b); discriminate.
    - apply in_flat_map in H as (s & _ & Hy). unfold push_signal in Hy.
      destruct (lookup e' (s_kind s) (w_comps (runs h))); [|destruct Hy]. destruct Hy as [Q|[]]. discriminate.
    - destruct (lsub h e' ty) as [|s r]; simpl in H. { destruct H as [H|[]]; discriminate. }
      destruct H as [Q|Hy].
      + unfold first_subscribe in Q. destruct (lookup e' (s_kind s) (w_comps (runs h))); discriminate.
      + apply in_map_iff in Hy as (s' & Q & _). discriminate.
  Qed.

  (** * Satellites *)
  Theorem satellites_many : forall h e k, length (satellites ins outs order h e k) =
    if subject ins k then 2 * copies h e k else copies h e k.
  Proof.
    intros h e k. pose proof (i_many (inv_run h) e k true) as M1. pose proof (i_many (inv_run h) e k false) as M2.
    unfold satellites. unfold sorted, subject in *.
    assert (X : forall l, length (filter (fun s => (s_on s =? e) && (s_kind s =? k)) l) = many e k true l + many e k false l).
    { unfold many, is_sat. induction l as [|s l IH]; simpl; auto.
      destruct ((s_on s =? e) && (s_kind s =? k)), (s_signal s); simpl; lia. }
    rewrite X, M1, M2. destruct (ins k); lia.
  Qed.
  Theorem satellites_careful : forall h e k, careful h -> length (satellites ins outs order h e k) =
    match held h e k with Some _ => if subject ins k then 2 else 1 | None => 0 end.
  Proof.
    intros h e k Hc. rewrite satellites_many, (careful_copies _ Hc). destruct (held h e k), (subject ins k); auto.
  Qed.
  Theorem nothing_left : forall h e, gone h e ->
    (forall k, held h e k = None /\ satellites ins outs order h e k = []) /\
    (forall ty v, tolds (OSignal e ty v :: h) = []) /\ (forall ty d, tolds (OSub e ty d :: h) = [TWait d]).
  Proof.
    intros h e Hg. apply gone_goneb in Hg.
    assert (HN : forall k, held h e k = None).
    { intros k. destruct (held h e k) eqn:E; auto. apply held_not_gone in E. congruence. }
    split; [|split].
    - intros k. split; auto. apply length_zero. rewrite satellites_many, gone_copies; auto. destruct (subject ins k); auto.
    - intros ty v. destruct (tolds (OSignal e ty v :: h)) as [|x r] eqn:E; auto. exfalso.
      destruct (@pushes_only h e ty v x) as (k & j & _ & _ & Q). { rewrite E. left. auto. } rewrite HN in Q. discriminate.
    - intros ty d. apply sub_none. intros k _. apply gone_copies. auto.
  Qed.

  (** * Outputs *)
  Theorem outputs_held : forall h e ty, outputs ins outs order h e ty = true ->
    exists k j, outs k = ty /\ held h e k = Some j.
  Proof.
    unfold outputs. induction h as [|o h IH]; intros e ty; simpl; [discriminate|].
    pose proof (inv_run h) as I.
    destruct o as [e' k' i|e' k'|e'|e' ty' v|e' ty' d]; unfold perform; cbv zeta.
    - unfold insert. simpl. rewrite (i_dead I). destruct (goneb h e') eqn:G.
      + simpl. intros H. destruct (IH _ _ H) as (k & j & H1 & H2). exists k, j. split; auto. simpl.
        destruct (key_spec e' e k' k) as [[-> ->]|N]; auto. apply held_not_gone in H2. congruence.
      + assert (X : w_outputs (on_insert ins e' k' (mkW (without e' k' (w_comps (runs h)) ++ [(e', k', i)]) (w_sats (runs h))
                     (w_ref (runs h)) (upd2 (w_outputs (runs h)) e' (outs k') true) (w_dead (runs h)) (w_next (runs h))
                     ((w_tr (runs h) ++ [TOp (OInsert e' k' i)]) ++
                      match lookup e' k' (w_comps (runs h)) with Some z => [TDrop e' k' z] | None => [] end))) e ty =
                    upd2 (w_outputs (runs h)) e' (outs k') true e ty).
        { unfold on_insert. destruct (ins k'); auto. }
        rewrite X. unfold upd2. destruct (key_spec e e' ty (outs k')) as [[-> ->]|N].
        * intros _. exists k', i. split; auto. rewrite !Nat.eqb_refl. simpl. rewrite G. auto.
        * intros H. destruct (IH _ _ H) as (k & j & H1 & H2). exists k. simpl.
          destruct (key_spec e' e k' k) as [[-> ->]|N']; [rewrite G|]; eauto.
    - unfold remove. simpl. rewrite (i_comps I). destruct (held h e' k') as [j'|] eqn:Eh.
      + assert (X : forall b w, w_outputs (despawn_ref e' k' b w) = w_outputs w).
        { intros. unfold despawn_ref. destruct (w_ref w e' k' b); auto. }
        simpl. unfold upd2. destruct (key_spec e e' ty (outs k')) as [[-> ->]|N]; [discriminate|].
        destruct (ins k'); rewrite !X; simpl; intros H; destruct (IH _ _ H) as (k & j & H1 & H2); exists k, j;
          (split; auto; destruct (key_spec e' e k' k) as [[-> ->]|N']; auto; exfalso; apply N; auto).
      + simpl. intros H. destruct (IH _ _ H) as (k & j & H1 & H2). exists k, j. split; auto.
        destruct (key_spec e' e k' k) as [[-> ->]|N']; auto. congruence.
    - simpl. rewrite (Nat.eqb_sym e e'). destruct (e' =? e); [discriminate|]. apply IH.
    - simpl. apply IH.
    - simpl. apply IH.
  Qed.
  Theorem outputs_there : forall h e k j, (forall k', outs k' = outs k -> k' = k) -> held h e k = Some j ->
    outputs ins outs order h e (outs k) = true.
  Proof.
    unfold outputs. intros h e k j Hu. revert j. induction h as [|o h IH]; intros j; simpl; [discriminate|].
    pose proof (inv_run h) as I.
    destruct o as [e' k' i|e' k'|e'|e' ty' v|e' ty' d]; unfold perform; cbv zeta.
    - unfold insert. simpl. rewrite (i_dead I). intros H. destruct (goneb h e') eqn:G.
      + simpl. destruct (key_spec e' e k' k) as [[-> ->]|N]; [|eauto]. rewrite G in H. discriminate.
      + assert (X : w_outputs (on_insert ins e' k' (mkW (without e' k' (w_comps (runs h)) ++ [(e', k', i)]) (w_sats (runs h))
                     (w_ref (runs h)) (upd2 (w_outputs (runs h)) e' (outs k') true) (w_dead (runs h)) (w_next (runs h))
                     ((w_tr (runs h) ++ [TOp (OInsert e' k' i)]) ++
                      match lookup e' k' (w_comps (runs h)) with Some z => [TDrop e' k' z] | None => [] end))) e (outs k) =
                    upd2 (w_outputs (runs h)) e' (outs k') true e (outs k)).
        { unfold on_insert. destruct (ins k'); auto. }
        rewrite X. unfold upd2. destruct (key_spec e e' (outs k) (outs k')) as [|N]; auto.
        destruct (key_spec e' e k' k) as [[-> ->]|N']; [tauto|eauto].
    - unfold remove. simpl. rewrite (i_comps I). intros H. destruct (held h e' k') as [j'|] eqn:Eh.
      + assert (X : forall b w, w_outputs (despawn_ref e' k' b w) = w_outputs w).
        { intros. unfold despawn_ref. destruct (w_ref w e' k' b); auto. }
        simpl. unfold upd2. destruct (key_spec e' e k' k) as [[-> ->]|N']; [discriminate|].
        destruct (key_spec e e' (outs k) (outs k')) as [[-> Q]|N]. { exfalso. apply N'. split; auto. }
        destruct (ins k'); rewrite !X; simpl; eauto.
      + simpl. destruct (key_spec e' e k' k) as [[-> ->]|N']; [discriminate|]. eauto.
    - simpl. rewrite (Nat.eqb_sym e e'). destruct (e' =? e); [discriminate|]. apply IH.
    - simpl. apply IH.
    - simpl. apply IH.
  Qed.
End Main.
