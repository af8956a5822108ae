(** Proofs about [RetryModel]: the statements in terms of what happened; sources that are done when
    they have been subscribed to. *)
From Verif Require Import Base SubscrModel LifeModel CombModel CatchSpec RetryModel RetrySpec RetryProofs.
Set Implicit Arguments.

Section All.
Variables A E : Type.
Variable down : list (ncall A E) -> bool.
Variable sync : nat -> list (ncall A E).
Variable live : nat -> bool.
Variable max : nat.
Notation run := (run down sync live max).

Lemma always_imp : forall (g g' : list (ev A E) -> ev A E -> Prop) l, (forall p e, g p e -> g' p e) -> always g l -> always g' l.
Proof. intros g g' l H G p e s K. apply H. eapply G. exact K. Qed.
Lemma run_good : forall h, always (good down max) (r_tr (run h)).
Proof. intros h. destruct (run_Q down sync live max h). destruct q_k as [[] _]. auto. Qed.
Lemma retry_numbered : forall h, always (@numbered A E) (r_tr (run h)).
Proof. intros h. eapply always_imp; [|apply run_good]. intros p e (H & _). auto. Qed.
Lemma retry_relays : forall h, always (relays down max) (r_tr (run h)).
Proof. intros h. eapply always_imp; [|apply run_good]. intros p e (_ & H & _). auto. Qed.
Lemma retry_obeys : forall h, always (@obeys A E) (r_tr (run h)).
Proof. intros h. eapply always_imp; [|apply run_good]. intros p e (_ & _ & H & _). auto. Qed.
Lemma retry_ends : forall h, always (ends down) (r_tr (run h)).
Proof. intros h. eapply always_imp; [|apply run_good]. intros p e (_ & _ & _ & H & _). auto. Qed.
Lemma retry_paid : forall h, paid down (r_tr (run h)).
Proof.
  intros h p e s c H O W. destruct s as [|e' s].
  - destruct (run_Q down sync live max h). destruct q_k as [_ Z]. exfalso. now apply (Z p e c).
  - exists s. f_equal. assert (G := run_good h). specialize (G (p ++ [e]) e' s). rewrite H, <- app_assoc in G. destruct (G eq_refl) as (_ & _ & _ & _ & D). apply (D p e c); auto.
Qed.
Lemma retry_attempts : forall h, attempts (r_tr (run h)) <= S (S max).
Proof. intros h. destruct (run_Q down sync live max h). destruct q_k as [[] _]. congruence. Qed.
Lemma retry_goes_on : forall h, goes_on down (r_tr (run h)).
Proof. intros h i F O. destruct (run_Q down sync live max h). destruct q_k as [[] _]. rewrite <- t_n. apply q_g; auto. now apply t_s. Qed.
Lemma retry_gives_up : forall h, gives_up down max (r_tr (run h)).
Proof.
  intros h H O. assert (S max < attempts (r_tr (run h))) by (apply retry_goes_on; auto).
  destruct (run_Q down sync live max h). destruct q_k as [[] _]. apply t_s in O. rewrite <- t_n in H0. specialize (q_e H0). unfold shut in q_e. congruence.
Qed.
Lemma retry_released : forall h, ~ open down (r_tr (run h)) \/ In TUser (r_tr (run h)) -> forall j, r_open (run h) j = false.
Proof.
  intros h H j. destruct (run_Q down sync live max h). destruct (r_open (run h) j) eqn:Z; auto. apply q_o in Z as (_ & _ & _ & _ & _ & _ & Z1 & Z2). destruct q_k as [[] _].
  destruct H as [H|H]; [destruct H; now apply t_s|]. apply q_u in H. congruence.
Qed.

(** *** No more than [max + 1] attempts if none fails late. *)
Notation same_n := (fun f => forall s : st A E, r_n (f s) = r_n s).
Lemma end_sub_n : forall j s, r_n (end_sub down j s) = r_n s.
Proof. intros j s. unfold end_sub. destruct (negb _); auto. destruct (is_busy j s); auto. destruct (_ && _); auto. now rewrite tell_n. Qed.
Lemma end_last_n : forall s, r_n (end_last down s) = r_n s.
Proof. intros s. unfold end_last. destruct (r_last s); auto using end_sub_n. Qed.
Lemma outer_n : forall s, r_n (outer_unsubscribe down s) = r_n s.
Proof. intros s. unfold outer_unsubscribe. destruct (r_outer s), (r_added s); auto. now rewrite end_last_n. Qed.
Lemma finish_n : forall j s, r_n (finish down j s) = r_n s.
Proof. intros j s. unfold finish. rewrite tell_n, outer_n. destruct (r_fin s j) as [[e|]|]; auto; now rewrite tell_n. Qed.
Lemma sub_n : forall j s, r_n (sub_unsubscribe down j s) = r_n s.
Proof. intros j s. unfold sub_unsubscribe. destruct (_ && _); auto using finish_n. Qed.
Lemma easy_n : forall j c s, r_n (easy_call down j c s) = r_n s.
Proof.
  intros j c s. destruct c; cbn [easy_call]; auto.
  - destruct (shut _); rewrite ?sub_n, tell_n; auto.
  - now rewrite finish_n.
  - now rewrite sub_n.
Qed.
Lemma easies_n : forall j l s, r_n (easy_calls down j l s) = r_n s.
Proof. intros j. induction l as [|c l IH]; intros s; cbn [easy_calls]; auto. now rewrite IH, easy_n. Qed.
Lemma attempt_n : forall r s, r_n (attempt down sync live r s) = S (r_n s).
Proof. intros r s. unfold attempt. destruct (_ && _); cbn [with_last with_open r_n]; now rewrite easies_n. Qed.
Lemma immediate_n : forall left s, r_n (immediate down sync live max left s) <= r_n s + left.
Proof.
  induction left as [|l IH]; intros s; cbn [immediate]; [lia|].
  assert (E1 := attempt_n (max - l) (with_caught s None)). cbn [r_n with_caught] in E1. set (s1 := attempt down sync live (max - l) (with_caught s None)) in *. clearbody s1.
  assert (E2 : r_n (outer_add down s1) = r_n s1) by (unfold outer_add; destruct (r_outer s1); auto using end_last_n).
  destruct (none (r_caught s1)).
  - destruct (shut s1), (l =? 0); rewrite ?outer_n, ?tell_n; lia.
  - assert (E3 : r_n (with_last (end_last down s1) None) = r_n s1) by (cbn; apply end_last_n). destruct l.
    + destruct (r_caught _); rewrite ?outer_n, ?tell_n; cbn [with_caught r_n]; lia.
    + specialize (IH (with_last (end_last down s1) None)). lia.
Qed.
Lemma perform_n : forall a s, early a = true -> r_n (perform down sync live max a s) = r_n s.
Proof.
  intros [j c|] s H; cbn [perform].
  - destruct (r_open s j); auto. unfold late_call. set (s2 := match c with Err e => _ | _ => _ end).
    assert (E2 : r_n s2 = r_n s) by (unfold s2; destruct c; try discriminate; now rewrite easy_n). clearbody s2.
    cbn [with_busy r_open]. destruct (r_open s2 j); rewrite ?sub_n; auto.
  - destruct (r_outer s); auto. now rewrite outer_n.
Qed.
Lemma retry_early : forall h, forallb early h = true -> attempts (r_tr (run h)) <= S max.
Proof.
  intros h H. destruct (run_Q down sync live max h). destruct q_k as [[] _]. rewrite <- t_n. clear - H. unfold RetryModel.run.
  assert (Z : r_n (subscribe down sync live max) <= S max) by (exact (immediate_n (S max) init)). revert Z. generalize (subscribe down sync live max).
  induction h as [|a h IH]; intros s Z; cbn [fold_left]; auto. cbn in H. apply andb_true_iff in H as [H1 H2]. apply IH; auto. now rewrite perform_n.
Qed.
End All.

(** *** Synchronous sources. *)
Section Sync.
Variables A E : Type.
Variable down : list (ncall A E) -> bool.
Variable vs : nat -> list A.                  (* the values of each attempt *)
Variable ends : nat -> option E.              (* its error, if it does not complete *)
Variable tail : nat -> nat.                   (* how often the source unsubscribes in the end *)
Variable max : nat.
Notation last_call := (last_call A ends).
Notation sync := (sync vs ends tail).
Notation retried := (retried vs ends).
Notation live := (fun _ : nat => false).

Definition feed1 (c : ncall A E) (t : told A E) : told A E := if t_shut t then t else tell down c t.
Definition feed (l : list (ncall A E)) (t : told A E) : told A E := fold_left (fun t c => feed1 c t) l t.
Lemma feed_shut : forall l t, t_shut t = true -> feed l t = t.
Proof. induction l as [|c l IH]; intros t H; auto. cbn. unfold feed1 at 2. rewrite H. now apply IH. Qed.
Lemma feed_app : forall l m t, feed (l ++ m) t = feed m (feed l t).
Proof. intros. apply fold_left_app. Qed.
Lemma feed_upto : forall l o, t_out (feed l (mkTold o false)) = o ++ upto down o l.
Proof.
  induction l as [|c l IH]; intros o; cbn [CatchSpec.upto]; [cbn; now rewrite app_nil_r|]. cbn [feed fold_left]. fold (feed l). unfold feed1, tell. cbn [t_shut t_out orb].
  destruct (is_closing c || down (o ++ [c])); [now rewrite feed_shut|]. rewrite IH, <- app_assoc. reflexivity.
Qed.
Lemma tell_feed : forall c s, r_told (tell_d down c s) = feed1 c (r_told s).
Proof. intros c s. unfold tell_d, shut, feed1. now destruct (t_shut (r_told s)). Qed.

Record Sy (j : nat) (s : st A E) : Prop := mkSy { y_l : r_last s = None; y_f : r_fin s j = None; y_o : nobody s }.
Lemma fin0_told : forall j s, Sy j s -> r_told (fin0 down s) = feed1 Uns (r_told s) /\ Sy j (fin0 down s) /\ r_caught (fin0 down s) = r_caught s.
Proof.
  intros j s [L F O]. unfold fin0. rewrite tell_feed, tell_caught, outer_none by auto. assert (E1 : r_told (if r_outer s then s else with_outer s true) = r_told s) by (now destruct (r_outer s)).
  rewrite E1. repeat split.
  - rewrite tell_last. now destruct (r_outer s).
  - rewrite tell_fin. now destruct (r_outer s).
  - unfold nobody. rewrite tell_ropen. now destruct (r_outer s).
  - now destruct (r_outer s).
Qed.
Lemma Sy_tell : forall j c s, Sy j s -> Sy j (tell_d down c s).
Proof. intros j c s [L F O]. constructor; [now rewrite tell_last|now rewrite tell_fin|unfold nobody; now rewrite tell_ropen]. Qed.
Lemma Sy_fin : forall j s, Sy j s -> Sy j (with_fin s j None).
Proof. intros j s [L F O]. constructor; auto. apply put_same. Qed.
Lemma easy_told : forall j c s, Sy j s -> r_caught s = None -> Sy j (easy_call down j c s) /\
  r_told (easy_call down j c s) = (match c with Err _ => r_told s | _ => feed1 c (r_told s) end) /\ r_caught (easy_call down j c s) = (match c with Err e => Some e | _ => None end).
Proof.
  intros j c s H N. assert (HL : forall x, Sy j (log s x)) by (intros x; destruct H; constructor; auto). destruct c as [a|e| |]; cbn [easy_call].
  - set (s1 := tell_d down (Nxt a) (log s (TIn j (Nxt a)))). assert (H1 : Sy j s1) by (now apply Sy_tell). assert (T1 : r_told s1 = feed1 (Nxt a) (r_told s)) by (exact (tell_feed (Nxt a) (log s (TIn j (Nxt a))))).
    assert (N1 : r_caught s1 = None) by (unfold s1; now rewrite tell_caught). clearbody s1.
    destruct (shut s1) eqn:Q; [|now auto]. unfold sub_unsubscribe. rewrite N1, (y_f H1). cbn [none andb]. unfold finish. rewrite (y_f H1).
    destruct (fin0_told (Sy_fin H1)) as (Z1 & Z2 & Z3). fold (fin0 down (with_fin s1 j None)). split; auto. rewrite Z1, Z3. split; auto. cbn [r_told with_fin]. unfold feed1 at 1. unfold shut in Q. now rewrite Q.
  - repeat split; destruct H; auto.
  - set (s1 := with_fin (log s (TIn j Cmp)) j (Some FCmp)).
    assert (E1 : finish down j s1 = fin0 down (tell_d down Cmp (with_fin s1 j None))) by (unfold finish at 1, s1 at 1; cbn [r_fin with_fin log]; now rewrite put_same).
    rewrite E1. assert (H1 : Sy j (tell_d down Cmp (with_fin s1 j None))) by (apply Sy_tell; unfold s1; destruct H; constructor; auto; apply put_same).
    destruct (fin0_told H1) as (Z1 & Z2 & Z3). split; auto. rewrite Z1, Z3, tell_caught. split; auto. rewrite tell_feed. unfold s1. cbn [r_told with_fin log].
    unfold feed1 at 1. assert (Q : t_shut (feed1 Cmp (r_told s)) = true) by (unfold feed1; destruct (t_shut (r_told s)) eqn:Q; auto; cbn; now rewrite orb_true_r). now rewrite Q.
  - assert (HL' := HL (TIn j Uns)). unfold sub_unsubscribe. rewrite (y_f HL'). cbn [r_caught log]. rewrite N. cbn [none andb]. unfold finish. rewrite (y_f HL').
    destruct (fin0_told (Sy_fin HL')) as (Z1 & Z2 & Z3). fold (fin0 down (with_fin (log s (TIn j Uns)) j None)). split; auto. rewrite Z1, Z3. auto.
Qed.
Lemma caught_told : forall j n s e, Sy j s -> r_caught s = Some e -> Sy j (easy_calls down j (repeat Uns n) s) /\
  r_told (easy_calls down j (repeat Uns n) s) = r_told s /\ r_caught (easy_calls down j (repeat Uns n) s) = Some e.
Proof.
  intros j n. induction n as [|n IH]; intros s e H N; cbn [repeat easy_calls]; auto. cbn [easy_call]. unfold sub_unsubscribe. cbn [r_caught log]. rewrite N. cbn [none andb].
  destruct (IH (log s (TIn j Uns)) e) as (I1 & I2 & I3); auto. destruct H; constructor; auto.
Qed.
Lemma over_told : forall j l s, Sy j s -> r_caught s = None -> t_shut (r_told s) = true -> (forall e, ~ In (Err e) l) -> Sy j (easy_calls down j l s) /\
  r_told (easy_calls down j l s) = r_told s /\ r_caught (easy_calls down j l s) = None.
Proof.
  intros j l. induction l as [|c l IH]; intros s H N S L; cbn [easy_calls]; auto. destruct (easy_told c H N) as (Z1 & Z2 & Z3).
  assert (E1 : r_told (easy_call down j c s) = r_told s) by (rewrite Z2; destruct c; auto; unfold feed1; now rewrite S).
  destruct (IH (easy_call down j c s)) as (I1 & I2 & I3); auto.
  - rewrite Z3. destruct c as [a|e| |]; auto. destruct (L e). now left.
  - now rewrite E1.
  - intros e Z. apply (L e). now right.
  - rewrite I2. auto.
Qed.
Lemma values_told : forall j l r s, Sy j s -> r_caught s = None -> exists s', easy_calls down j (map Nxt l ++ r) s = easy_calls down j r s' /\ Sy j s' /\ r_caught s' = None /\
  r_told s' = feed (map Nxt l) (r_told s).
Proof.
  intros j l r. induction l as [|a l IH]; intros s H N; [now exists s|]. cbn [map app easy_calls]. destruct (easy_told (Nxt a) H N) as (Z1 & Z2 & Z3).
  destruct (IH _ Z1 Z3) as (s' & H1 & H2 & H3 & H4). exists s'. repeat split; auto; try apply H2. rewrite H4, Z2. reflexivity.
Qed.
Lemma sync_told : forall j s, Sy j s -> r_caught s = None -> Sy j (easy_calls down j (sync j) s) /\ r_caught (easy_calls down j (sync j) s) = ends j /\
  r_told (easy_calls down j (sync j) s) = feed (map Nxt (vs j) ++ match ends j with Some _ => [] | None => [Cmp] end) (r_told s).
Proof.
  intros j s H N. unfold RetrySpec.sync. destruct (values_told (vs j) ([last_call j] ++ repeat Uns (tail j)) H N) as (s1 & -> & H1 & N1 & T1). cbn [app easy_calls].
  unfold RetrySpec.last_call. destruct (ends j) as [e|].
  - destruct (easy_told (Err e) H1 N1) as (Z1 & Z2 & Z3). destruct (caught_told (tail j) Z1 Z3) as (Y1 & Y2 & Y3). split; auto. split; auto. rewrite Y2, Z2, T1, app_nil_r. auto.
  - destruct (easy_told Cmp H1 N1) as (Z1 & Z2 & Z3). destruct (@over_told j (repeat Uns (tail j)) _ Z1 Z3) as (Y1 & Y2 & Y3).
    + rewrite Z2. unfold feed1. destruct (t_shut (r_told s1)) eqn:Q; auto. cbn. now rewrite orb_true_r.
    + intros e Z. apply repeat_spec in Z. discriminate.
    + split; auto. split; auto. rewrite Y2, Z2, T1, feed_app. reflexivity.
Qed.
Lemma feed_closed : forall c l t, is_closing c = true -> t_shut (feed (l ++ [c]) t) = true.
Proof. intros c l t H. rewrite feed_app. cbn. unfold feed1. destruct (t_shut (feed l t)) eqn:Q; auto. cbn. now rewrite H, orb_true_r. Qed.

Lemma attempt_told : forall r s, r_last s = None -> nobody s -> r_caught s = None ->
  r_last (attempt down sync live r s) = None /\ nobody (attempt down sync live r s) /\ r_caught (attempt down sync live r s) = ends (r_n s) /\
  r_n (attempt down sync live r s) = S (r_n s) /\ r_told (attempt down sync live r s) = feed (map Nxt (vs (r_n s)) ++ match ends (r_n s) with Some _ => [] | None => [Cmp] end) (r_told s).
Proof.
  intros r s L O C. rewrite attempt_n. unfold attempt. cbn [andb]. set (j := r_n s). set (s0 := log _ _).
  assert (H0 : Sy j s0) by (constructor; auto; apply put_same). assert (N0 : r_caught s0 = None) by (exact C).
  destruct (sync_told H0 N0) as ([] & H2 & H3). auto.
Qed.
Lemma closed_over : forall s, t_shut (r_told s) = true -> r_last s = None -> nobody s ->
  r_told (outer_unsubscribe down (tell_d down Uns s)) = r_told s /\ nobody (outer_unsubscribe down (tell_d down Uns s)).
Proof.
  intros s S L O. rewrite tell_shut by (exact S). rewrite outer_none by auto. destruct (r_outer s); auto.
Qed.
Lemma immediate_told : forall left s, r_last s = None -> nobody s ->
  r_told (immediate down sync live max (S left) s) = feed (retried left (r_n s)) (r_told s) /\ nobody (immediate down sync live max (S left) s).
Proof.
  induction left as [|l IH]; intros s L O; cbn [immediate].
  - destruct (@attempt_told (max - 0) (with_caught s None) L O eq_refl) as (A1 & A2 & A3 & A4 & A5). set (s1 := attempt down sync live (max - 0) (with_caught s None)) in *. clearbody s1.
    cbn [r_n with_caught r_told] in *. rewrite A3. cbn [RetrySpec.retried]. unfold RetrySpec.last_call. destruct (ends (r_n s)) as [e|]; cbn [none].
    + unfold end_last. rewrite A1. cbn [r_caught with_last]. rewrite A3.
      assert (T2 : r_told (tell_d down (Err e) (with_caught (with_last s1 None) None)) = feed (map Nxt (vs (r_n s)) ++ [Err e]) (r_told s)).
      { rewrite tell_feed. cbn [r_told with_caught with_last]. rewrite A5, app_nil_r, feed_app. reflexivity. }
      destruct (@closed_over (tell_d down (Err e) (with_caught (with_last s1 None) None))) as [B1 B2].
      * rewrite T2. now apply feed_closed.
      * now rewrite tell_last.
      * unfold nobody. now rewrite tell_ropen.
      * split; auto. now rewrite B1.
    + assert (S1 : shut s1 = true) by (unfold shut; rewrite A5; now apply feed_closed). rewrite S1. cbn [Nat.eqb].
      destruct (@closed_over s1) as [B1 B2]; auto. split; auto. now rewrite B1, A5.
  - destruct (@attempt_told (max - S l) (with_caught s None) L O eq_refl) as (A1 & A2 & A3 & A4 & A5). set (s1 := attempt down sync live (max - S l) (with_caught s None)) in *. clearbody s1.
    cbn [r_n with_caught r_told] in *. rewrite A3. cbn [RetrySpec.retried]. unfold RetrySpec.last_call. destruct (ends (r_n s)) as [e|]; cbn [none].
    + unfold end_last. rewrite A1. destruct (IH (with_last s1 None)) as [B1 B2]; auto. split; [|exact B2]. etransitivity; [exact B1|].
      cbn [r_told r_n with_last]. rewrite A4, A5, app_nil_r, feed_app. reflexivity.
    + assert (S1 : shut s1 = true) by (unfold shut; rewrite A5; now apply feed_closed). rewrite S1. cbn [Nat.eqb]. split; auto.
Qed.
(** A history changes nothing once everything is over. *)
Lemma retry_sync : forall h, outs (r_tr (run down sync live max h)) = upto down [] (retried max 0).
Proof.
  intros h. destruct (run_Q down sync live max h). destruct q_k as [[] _]. rewrite <- t_o. clear - h.
  destruct (@immediate_told max init eq_refl (fun _ => eq_refl)) as [H1 H2]. fold (subscribe down sync live max) in *.
  assert (Z : r_told (run down sync live max h) = r_told (subscribe down sync live max)).
  { unfold run. revert H2. generalize (subscribe down sync live max). induction h as [|a h IH]; intros s H2; auto. cbn [fold_left].
    assert (P : r_told (perform down sync live max a s) = r_told s /\ nobody (perform down sync live max a s)); [|rewrite IH; apply P].
    destruct a as [j c|]; cbn [perform]; [now rewrite H2|]. destruct (r_outer s); auto.
    unfold outer_unsubscribe. cbn [r_outer log]. destruct (r_outer s); auto. cbn [r_added log]. destruct (r_added s); auto. unfold end_last. cbn [r_last with_outer log]. destruct (r_last s) as [j|]; auto.
    unfold end_sub. cbn [r_open with_outer log]. rewrite H2. auto. }
  rewrite Z, H1. exact (feed_upto (retried max 0) []).
Qed.
End Sync.
