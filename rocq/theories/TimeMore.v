(** Consequences. *)
From Coq Require Import ZArith.
From Verif Require Import Base SubscrModel SchedModel TimeModel TimeSpec TimeProofs TimeInterval.
Set Implicit Arguments.

Lemma always_app {A B E} (good : list (tev A B E) -> tev A B E -> Prop) l l' : always good (l ++ l') -> always good l.
Proof. intros H p e s ->. apply (H p e (s ++ l')). rewrite <- app_assoc. reflexivity. Qed.
Lemma always_last {A B E} (good : list (tev A B E) -> tev A B E -> Prop) l e : always good (l ++ [e]) -> good l e.
Proof. intros H. apply (H l e []). reflexivity. Qed.

(** Values in order, by their number. *)
Lemma values_by {A B E} (f : list (tev A B E) -> nat -> option B) (l : list (tev A B E)) :
  (forall p e i b, f p i = Some b -> f (p ++ [e]) i = Some b) ->
  always (fun p e => forall b, e = XOut (Nxt b) -> f p (length (values p)) = Some b) l ->
  forall i b, nth_error (values l) i = Some b -> f l i = Some b.
Proof.
  intros Hm. induction l as [|e l IH] using rev_ind; intros H i b.
  - destruct i; discriminate.
  - rewrite values_snoc. intros Hi. apply Hm.
    destruct (Nat.lt_ge_cases i (length (values l))) as [Hl|Hl].
    + rewrite nth_error_app1 in Hi by auto. apply IH; auto. eapply always_app; eauto.
    + rewrite nth_error_app2 in Hi by auto. apply always_last in H.
      destruct e as [| | | |[b'|x| |]]; cbn in Hi; try (destruct (i - length (values l)); discriminate).
      destruct (i - length (values l)) as [|[|?]] eqn:Hz; try discriminate. injection Hi as ->. replace i with (length (values l)) by lia.
      apply H. auto.
Qed.

Lemma prefix_by {Y} (l l' : list Y) : (forall i b, nth_error l i = Some b -> nth_error l' i = Some b) -> exists r, l' = l ++ r.
Proof.
  revert l'. induction l as [|y l IH]; intros l' H; [eexists; reflexivity|].
  destruct l' as [|y' l']; [discriminate (H 0 y eq_refl)|]. assert (E := H 0 y eq_refl). injection E as ->.
  destruct (IH l') as [r ->]; [|exists r; reflexivity]. intros i b Hi. apply (H (S i) b Hi).
Qed.

Lemma pushes_more {A B E} (p : list (tev A B E)) e i x : nth_error (pushes p) i = Some x -> nth_error (pushes (p ++ [e])) i = Some x.
Proof. intros H. rewrite pushes_snoc. rewrite nth_error_app1; auto. apply nth_error_Some. congruence. Qed.
Lemma pushes_more_snd {A B E} (p : list (tev A B E)) e i x : nth_error (map snd (pushes p)) i = Some x -> nth_error (map snd (pushes (p ++ [e]))) i = Some x.
Proof.
  intros H. rewrite pushes_snoc, map_app. rewrite nth_error_app1; auto. apply nth_error_Some. congruence.
Qed.

Lemma always_weaken {A B E} (g1 g2 : list (tev A B E) -> tev A B E -> Prop) l : (forall p e, g1 p e -> g2 p e) -> always g1 l -> always g2 l.
Proof. intros H H1 p e s E1. eauto. Qed.

Section Pre.
Variables A E X : Type.
Variable down : list (ncall A E) -> bool * list (req X).
Lemma delayed_prefix d tr : always (delayed down d) tr -> exists r, map snd (pushes tr) = values tr ++ r.
Proof.
  intros H. apply prefix_by. apply (@values_by A A E (fun p i => nth_error (map snd (pushes p)) i)).
  - intros. apply pushes_more_snd; auto.
  - eapply always_weaken; [|exact H]. intros p e He b ->. destruct He as (_ & s & H1 & _). apply map_nth_error with (f := snd) in H1. auto.
Qed.
Lemma observed_prefix tr : always (observed down) tr -> exists r, map snd (pushes tr) = values tr ++ r.
Proof.
  intros H. apply prefix_by. apply (@values_by A A E (fun p i => nth_error (map snd (pushes p)) i)).
  - intros. apply pushes_more_snd; auto.
  - eapply always_weaken; [|exact H]. intros p e He b ->. destruct He as (_ & _ & H1). auto.
Qed.
End Pre.

(** interval counts. *)
Lemma counted_up {A E X} (down : list (ncall nat E) -> bool * list (req X)) d now cap (tr : list (tev A nat E)) :
  always (at_intervals down d now cap) tr -> values tr = seq 0 (length (values tr)).
Proof.
  induction tr as [|e tr IH] using rev_ind; intros H; [reflexivity|].
  specialize (IH (always_app _ H)). apply always_last in H. rewrite values_snoc.
  destruct e as [| | | |[n|x| |]]; rewrite ?app_nil_r; auto.
  destruct H as (_ & -> & _). rewrite app_length, seq_app. cbn. rewrite <- IH. reflexivity.
Qed.

(** iterator_on_tick gives the items. *)
Lemma items_of {A B E X} (down : list (ncall B E) -> bool * list (req X)) item n now (tr : list (tev A B E)) :
  always (on_ticks down item n now) tr -> forall i b, nth_error (values tr) i = Some b -> item i = Some b.
Proof.
  intros H. apply (@values_by A B E (fun _ i => item i)); auto.
  eapply always_weaken; [|exact H]. intros p e He b ->. destruct He as (_ & H1 & _). auto.
Qed.

(** An empty iterator gives nothing, not even its completion. *)
Lemma nothing_of {A B E X} (down : list (ncall B E) -> bool * list (req X)) item n now (tr : list (tev A B E)) :
  item 0 = None -> always (on_ticks down item n now) tr -> forall c, In (XOut c) tr -> c = Uns.
Proof.
  intros Hi H.
  assert (K : forall i b, nth_error (values tr) i = Some b -> item i = Some b) by (eapply items_of; eauto).
  assert (V : values tr = []).
  { destruct (values tr) as [|b l]; auto. specialize (K 0 b eq_refl). congruence. }
  intros c Hc. apply in_split in Hc. destruct Hc as (p & s & E1). assert (G := H _ _ _ E1). cbn in G.
  assert (Nv : forall b, ~ In (XOut (Nxt b)) tr).
  { intros b Hb. apply in_split in Hb. destruct Hb as (p' & s' & ->). unfold values in V. rewrite outs_app, flat_map_app in V.
    apply app_eq_nil in V. destruct V as [_ V]. discriminate. }
  destruct c as [b|x| |]; auto.
  - destruct (Nv b). rewrite E1. apply in_elt.
  - tauto.
  - destruct G as (_ & (b & l' & E2) & _). destruct (Nv b). rewrite E1, E2, <- app_assoc. apply in_elt.
Qed.

(** Unsubscribing at once means that nothing follows. *)
Section Quiet.
Variables A B E X : Type.
Variable down : list (ncall B E) -> bool * list (req X).
Notation ev := (tev A B E).
Lemma open_prefix (l l' : list ev) : open down (l ++ l') -> open down l.
Proof.
  intros H os c os' Ho. apply (H os c (os' ++ outs l')). rewrite outs_app, Ho, <- app_assoc. reflexivity.
Qed.
Lemma quiet_after (good : list ev -> ev -> Prop) ans (tr : list ev) :
  (forall p c, good p (XOut c) -> open down p) -> (forall p, ans p (XUp Uns) = Some Uns) ->
  always good tr -> answered down ans tr ->
  forall p s, tr = p ++ XUp Uns :: s -> forall b, ~ In (XOut (Nxt b)) s.
Proof.
  intros Hg Ha H1 H2 p s E1 b Hb. apply in_split in Hb. destruct Hb as (s1 & s2 & ->).
  assert (G : open down ((p ++ [XUp Uns]) ++ s1)).
  { apply (Hg _ (Nxt b)). apply (H1 _ _ s2). rewrite E1, <- !app_assoc. reflexivity. }
  assert (G1 := open_prefix _ _ G). destruct (H2 _ _ _ _ E1 (Ha p) G1) as [s' E2].
  destruct s1 as [|e1 s1]; [discriminate|]. injection E2 as -> E2. subst s'.
  replace ((p ++ [XUp Uns]) ++ XOut Uns :: s1) with (((p ++ [XUp Uns]) ++ [XOut Uns]) ++ s1) in G by (rewrite <- !app_assoc; reflexivity).
  apply open_prefix in G. apply open_out in G. destruct G as (_ & (b' & ?) & _). discriminate.
Qed.
End Quiet.

(** What is told after the end: nothing. *)
Lemma over_after {A B E X} (down : list (ncall B E) -> bool * list (req X)) (good : list (tev A B E) -> tev A B E -> Prop) tr :
  (forall p c, good p (XOut c) -> open down p) -> always good tr ->
  forall os c os', outs tr = os ++ c :: os' -> (forall b, c <> Nxt b) \/ fst (down (os ++ [c])) = true -> os' = [].
Proof.
  intros Hg. induction tr as [|e tr IH] using rev_ind; intros H os c os' E1 E2; [destruct os; discriminate|].
  specialize (IH (always_app _ H)). apply always_last in H. rewrite outs_app in E1.
  destruct e as [| | | |c']; cbn in E1; rewrite ?app_nil_r in E1; eauto.
  destruct os' as [|z os' _] using rev_ind; auto. exfalso.
  rewrite app_comm_cons, app_assoc in E1. apply app_inj_tail in E1. destruct E1 as [E1 <-].
  apply Hg in H. destruct (H _ _ _ E1) as [[b ->] H2]. destruct E2 as [E2|E2]; [eapply E2; eauto|congruence].
Qed.

(** The closed form of interval. *)
Lemma interval_exact {A E X} (down : list (ncall nat E) -> bool * list (req X)) d now cap (tr p s : list (tev A nat E)) :
  0 < d -> always (at_intervals down d now cap) tr -> tr = p ++ XEnd :: s -> open down p ->
  (forall p0 t r s0, p = p0 ++ XTick t :: r -> since p0 = Some s0 -> t <= clock p0 + cap * d) ->
  length (values p) = match since p with Some s0 => (if now then 1 else 0) + (clock p - s0) / d | None => 0 end.
Proof.
  intros Hd H E1 Ho Hc. assert (G := H _ _ _ E1). cbn in G. rewrite (G Ho).
  destruct (@periods_all _ _ d cap p Hd Hc) as [-> _]. destruct (since p); reflexivity.
Qed.
