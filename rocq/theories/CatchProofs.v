(** Proofs about [CatchModel]. *)
From Coq Require Import NArith.
From Verif Require Import Base SubscrModel LifeModel CombModel LifeProofs CatchModel CatchSpec.
Set Implicit Arguments.

Section Proofs.
Variables A E1 E2 : Type.
Variable down : list (ncall A E2) -> bool.
Variable mapper : E1 -> list (ncall A E2).
Notation st := (CatchModel.st A E2).
Notation act := (act A E1 E2).
Notation upto := (upto down).
Notation run := (run down mapper).

(** The source is being heard; the replacement is; it is over. *)
Definition P0 (o : list (ncall A E2)) : st := mkSt (mkTold o false) fresh fresh 0 0 true false false false false false.
Definition P1 (o : list (ncall A E2)) (b : bool) : st := mkSt (mkTold o false) 20%N fresh 1 1 false false b true false false.
Definition P2 (o : list (ncall A E2)) (closed : bool) (s : st) : Prop :=
  c_told s = mkTold o true /\ (c_torn s = true \/ closed = true /\ c_mapper s = false) /\ (c_stored s = true -> c_closed s = true) /\
  negb (c_sub s) || c_closed s = true.

Lemma P2_tell : forall o b s c, P2 o b s -> tell_d down c s = s.
Proof. intros o b s c (H & _). unfold tell_d. now rewrite H. Qed.
Lemma P2_unsub : forall o b s, P2 o b s -> exists s', unsubscribe down s = Some s' /\ P2 o b s'.
Proof.
  intros o b s H. unfold unsubscribe. destruct (c_torn s) eqn:Q; [eauto|]. destruct H as (H1 & H2 & H3 & H4).
  assert (Z : exists s1, (if c_stored s then inner_unsubscribe down (with_stored s false) else Some s) = Some s1 /\ P2 o b s1).
  { destruct (c_stored s) eqn:Qs; [|exists s; repeat split; auto; congruence]. unfold inner_unsubscribe. cbn. rewrite (H3 eq_refl).
    eexists. split; [reflexivity|]. repeat split; auto. }
  destruct Z as (s1 & -> & Z). exists (tell_d down Uns (with_torn s1 true)). split; auto.
  assert (Y : P2 o b (with_torn s1 true)) by (destruct Z as (Z1 & Z2 & Z3 & Z4); repeat split; auto).
  now rewrite (@P2_tell o b).
Qed.
Lemma P2_inner : forall o b s c, P2 o b s -> inner_call down c s = Some s.
Proof. intros o b s c (_ & _ & _ & H). unfold inner_call. now rewrite H. Qed.
Lemma P2_mono : forall o b b' s, P2 o b s -> (b = true -> b' = true) -> P2 o b' s.
Proof. intros o b b' s (H1 & H2 & H3 & H4) Hb. repeat split; auto. destruct H2 as [H2|[H2 H5]]; auto. Qed.
Lemma P2_source : forall o b s c, P2 o b s -> (b = true -> match c with Cmp => False | _ => True end) ->
  exists s', source_call down mapper c s = Some s' /\ P2 o b s'.
Proof.
  intros o b s c H Hc. destruct c as [a|e| |]; cbn [source_call].
  - rewrite (@P2_tell o b) by auto. destruct (proj1 H). rewrite (proj1 H). cbn. eapply P2_unsub; eauto.
  - destruct H as (H1 & [H2|[H2 H2']] & H3). { rewrite H2. cbn. eexists. split; eauto. repeat split; auto; apply H3. }
    rewrite H2'. cbn. rewrite orb_true_r. eexists. split; eauto. repeat split; auto; apply H3.
  - destruct H as (H1 & [H2|[H2 _]] & H3); [|destruct (Hc H2)]. rewrite H2. eexists. split; eauto. repeat split; auto; apply H3.
  - eapply P2_unsub; eauto.
Qed.
Lemma P2_run : forall h o b g s, contract b g (source h) -> P2 o b s -> exists s', run h s = Some s' /\ c_told s' = mkTold o true.
Proof.
  induction h as [|a h IH]; intros o b g s C H; [exists s; split; [auto|apply H]|]. destruct a as [c|c]; cbn [CatchModel.run perform].
  - cbn [source flat_map app] in C. fold (source h) in C.
    assert (Hc : b = true -> match c with Cmp => False | _ => True end) by (intros ->; destruct c; cbn in C; auto; destruct C; discriminate).
    destruct (P2_source c H Hc) as (s' & -> & H'). destruct c; cbn in C.
    + destruct C as [-> C]. eapply IH; eauto.
    + destruct C as [-> C]. apply (IH o true g s' C). now apply (P2_mono H').
    + destruct C as [-> C]. apply (IH o true g s' C). now apply (P2_mono H').
    + apply (IH o true true s' C). now apply (P2_mono H').
  - rewrite (P2_inner c H). eapply IH; eauto.
Qed.

Lemma P1_call : forall o b c, exists s', inner_call down c (P1 o b) = Some s' /\
  if is_closing c || down (o ++ [c]) then P2 (o ++ [c]) true s' /\ c_closed s' = true else s' = P1 (o ++ [c]) b.
Proof.
  intros o b c. destruct c as [a|e| |].
  - unfold inner_call. cbn [c_sub c_closed P1 negb orb]. unfold tell_d. cbn [c_told t_shut P1 with_told].
    unfold tell. cbn [t_out t_shut is_closing orb]. destruct (down (o ++ [Nxt a])) eqn:Q; cbn; eexists; split; try reflexivity. repeat split; auto.
  - cbn. eexists. split; [reflexivity|]. repeat split; auto.
  - cbn. eexists. split; [reflexivity|]. repeat split; auto.
  - cbn. eexists. split; [reflexivity|]. repeat split; auto.
Qed.

Lemma P1_calls : forall l o, exists s', inner_calls down l (P1 o false) = Some s' /\
  (s' = P1 (o ++ l) false /\ (forall r, upto o (l ++ r) = l ++ upto (o ++ l) r) \/
   (P2 (o ++ upto o l) true s' /\ c_closed s' = true) /\ forall r, upto o (l ++ r) = upto o l).
Proof.
  induction l as [|c l IH]; intros o; cbn [inner_calls].
  - eexists. split; [reflexivity|]. left. rewrite app_nil_r. auto.
  - destruct (P1_call o false c) as (s1 & -> & H). cbn [CatchSpec.upto app]. destruct (is_closing c || down (o ++ [c])) eqn:Q.
    + exists s1. split; [|auto]. destruct H as [H _]. clear - H. induction l as [|x l IH]; auto. cbn [inner_calls]. now rewrite (P2_inner x H).
    + subst s1. destruct (IH (o ++ [c])) as (s' & -> & H). exists s'. split; auto. rewrite <- !app_assoc in H. cbn [app] in H.
      destruct H as [[-> H]|[H1 H2]]; [left|right]; split; auto; intros r; [rewrite H|rewrite H2]; auto.
Qed.

Lemma P1_run : forall h o g, contract true g (source h) ->
  exists s', run h (P1 o true) = Some s' /\ t_out (c_told s') = o ++ upto o (replaced h).
Proof.
  induction h as [|a h IH]; intros o g C; [eexists; split; [reflexivity|]; now rewrite app_nil_r|]. destruct a as [c|c]; cbn [CatchModel.run perform replaced].
  - cbn [source flat_map app] in C. fold (source h) in C. destruct c; cbn in C; try (destruct C; discriminate).
    assert (Z : exists s', source_call down mapper Uns (P1 o true) = Some s' /\ P2 (o ++ [Uns]) true s') by (cbn; eexists; split; try reflexivity; repeat split; auto; try discriminate).
    destruct Z as (s1 & -> & H). destruct (@P2_run h (o ++ [Uns]) true true s1 C H) as (s' & -> & Hs). exists s'. split; auto. now rewrite Hs.
  - destruct (P1_call o true c) as (s1 & -> & H). cbn [CatchSpec.upto]. destruct (is_closing c || down (o ++ [c])) eqn:Q.
    + destruct (P2_run h g C (proj1 H)) as (s' & -> & Hs). exists s'. split; auto. now rewrite Hs.
    + subst s1. destruct (IH (o ++ [c]) g C) as (s' & -> & Hs). exists s'. split; auto. now rewrite Hs, <- app_assoc.
Qed.

Lemma P0_run : forall h o g, contract false g (source h) ->
  exists s', run h (P0 o) = Some s' /\ t_out (c_told s') = o ++ upto o (caught mapper h).
Proof.
  induction h as [|a h IH]; intros o g C; [eexists; split; [reflexivity|]; now rewrite app_nil_r|]. destruct a as [c|c]; cbn [CatchModel.run perform caught].
  - cbn [source flat_map app] in C. fold (source h) in C. destruct c as [a|e| |]; cbn in C.
    + assert (Z : exists s', source_call down mapper (Nxt a) (P0 o) = Some s' /\ if down (o ++ [Nxt a]) then P2 (o ++ [Nxt a]) false s' else s' = P0 (o ++ [Nxt a])).
      { cbn [source_call]. unfold tell_d. cbn [c_told t_shut P0 with_told]. unfold tell. cbn [t_out t_shut is_closing orb].
        destruct (down (o ++ [Nxt a])); cbn; eexists; split; try reflexivity. repeat split; auto; try discriminate. }
      destruct Z as (s1 & -> & H). cbn [CatchSpec.upto is_closing orb]. destruct (down (o ++ [Nxt a])).
      * destruct (P2_run h g (proj2 C) H) as (s' & -> & Hs). exists s'. split; auto. now rewrite Hs.
      * subst s1. destruct (IH (o ++ [Nxt a]) g (proj2 C)) as (s' & -> & Hs). exists s'. split; auto. now rewrite Hs, <- app_assoc.
    + cbn -[inner_calls CatchModel.run]. change (with_inner _ _ _ _) with (P1 o false). destruct (P1_calls (mapper e) o) as (s3 & -> & [[-> H]|[H1 H2]]).
      * cbn -[CatchModel.run]. change (with_stored (P1 (o ++ mapper e) false) true) with (P1 (o ++ mapper e) true). destruct (P1_run h (o ++ mapper e) g (proj2 C)) as (s' & -> & Hs). exists s'. split; auto. rewrite Hs, H. now rewrite app_assoc.
      * rewrite H2. destruct H1 as [H1 Hcl]. rewrite Hcl. rewrite (proj1 H1). cbn [t_shut]. destruct (P2_unsub H1) as (s4 & -> & H4).
        destruct (P2_run h g (proj2 C) H4) as (s' & -> & Hs). exists s'. split; auto. now rewrite Hs.
    + assert (Z : exists s', source_call down mapper Cmp (P0 o) = Some s' /\ P2 (o ++ [Cmp]) true s') by (cbn; eexists; split; try reflexivity; repeat split; auto; try discriminate).
      destruct Z as (s1 & -> & H). destruct (P2_run h g (proj2 C) H) as (s' & -> & Hs). exists s'. split; auto. now rewrite Hs.
    + assert (Z : exists s', source_call down mapper Uns (P0 o) = Some s' /\ P2 (o ++ [Uns]) true s') by (cbn; eexists; split; try reflexivity; repeat split; auto; try discriminate).
      destruct Z as (s1 & -> & H). destruct (P2_run h true C H) as (s' & -> & Hs). exists s'. split; auto. now rewrite Hs.
  - cbn [inner_call c_sub P0 negb orb]. apply IH with g. exact C.
Qed.
Lemma catch_told : forall h, contract false false (source h) ->
  exists s, run h (init A E2) = Some s /\ t_out (c_told s) = upto [] (caught mapper h).
Proof. intros h C. exact (@P0_run h [] false C). Qed.

Lemma upto_last : forall l o l1 c l2, upto o l = l1 ++ c :: l2 -> is_closing c = true -> l2 = [].
Proof.
  induction l as [|x l IH]; intros o [|y l1] c l2 H Q; cbn [CatchSpec.upto app] in H; try discriminate.
  - injection H as <- H. now rewrite Q in H.
  - injection H as <- H. destruct (is_closing x || down (o ++ [x])); [destruct l1; discriminate|]. eapply IH; eauto.
Qed.
Lemma catch_grammar : forall h s l1 c l2, contract false false (source h) -> run h (init A E2) = Some s ->
  t_out (c_told s) = l1 ++ c :: l2 -> is_closing c = true -> l2 = [].
Proof. intros h s l1 c l2 C R H. destruct (catch_told h C) as (s' & R' & H'). rewrite R in R'. injection R' as <-. rewrite H' in H. eapply upto_last; eauto. Qed.
End Proofs.

Section Values.
Variables A E1 E2 : Type.
Variable mapper : E1 -> list (ncall A E2).
Lemma upto_values : forall (vs : list A) (o l : list (ncall A E2)),
  upto (fun _ => false) o (map Nxt vs ++ l) = map Nxt vs ++ upto (fun _ => false) (o ++ map Nxt vs) l.
Proof.
  induction vs as [|v vs IH]; intros o l; cbn [map app CatchSpec.upto is_closing orb]; [now rewrite app_nil_r|].
  rewrite IH, <- app_assoc. reflexivity.
Qed.
Lemma caught_values : forall (vs : list A) (r : list (act A E1 E2)),
  caught mapper (map (fun v => Src (Nxt v)) vs ++ r) = map Nxt vs ++ caught mapper r.
Proof. induction vs as [|v vs IH]; intros r; cbn; [auto|now rewrite IH]. Qed.
Lemma replaced_inner : forall (l : list (ncall A E2)), replaced (map (fun c => @Inn A E1 E2 c) l) = l.
Proof. induction l as [|c l IH]; cbn; [auto|now rewrite IH]. Qed.
Lemma source_values : forall (vs : list A) e (l : list (ncall A E2)),
  source (map (fun v => Src (Nxt v)) vs ++ Src (Err e) :: map (fun c => Inn c) l) = map (fun v => @Nxt A E1 v) vs ++ [Err e].
Proof.
  intros vs e l. unfold source. induction vs as [|v vs IH]; cbn [map app flat_map]; [|now rewrite IH].
  f_equal. induction l; cbn; auto.
Qed.
Lemma contract_values : forall (vs : list A) (e : E1), contract false false (map Nxt vs ++ [Err e]).
Proof. induction vs as [|v vs IH]; intros e; cbn; auto. Qed.
(** Values, an error, values of the replacement, and its end. *)
Lemma catch_values : forall vs (e : E1) (now later : list A) (c : ncall A E2), is_closing c = true -> mapper e = map Nxt now ->
  exists s, run (fun _ => false) mapper (map (fun v => Src (Nxt v)) vs ++ Src (Err e) :: map (fun d => Inn d) (map Nxt later ++ [c])) (init A E2) = Some s /\
    t_out (c_told s) = map Nxt (vs ++ now ++ later) ++ [c].
Proof.
  intros vs e now later c Q M. destruct (@catch_told A E1 E2 (fun _ => false) mapper (map (fun v => Src (Nxt v)) vs ++ Src (Err e) :: map (fun d => Inn d) (map Nxt later ++ [c]))) as (s & R & H).
  - rewrite source_values. apply contract_values.
  - exists s. split; auto. rewrite H, caught_values. cbn [caught]. rewrite replaced_inner, M, !upto_values.
    cbn [CatchSpec.upto]. rewrite Q. cbn [orb]. now rewrite !map_app, <- !app_assoc.
Qed.
End Values.
