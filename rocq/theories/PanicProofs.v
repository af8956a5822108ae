(** Proofs about destinations that panic. *)
From Verif Require Import Base PanicModel PanicSpec.
From Coq Require Import Permutation Lia.
Set Implicit Arguments.

Section P.
Variables A E : Type.
Variable boom : list (sig A E) -> bool.
Variable tboom : nat -> bool.
Notation dest := (dest A E).
Notation exec := (exec tboom).
Notation exec_all := (exec_all tboom).
Notation unsub := (unsub tboom).
Notation add := (add tboom).
Notation tell := (tell boom tboom).
Notation arc_op := (arc_op boom tboom).
Notation hstep := (hstep boom tboom).
Notation hsteps := (hsteps boom tboom).
Notation sh_op := (sh_op boom tboom).
Notation sstep := (sstep boom tboom).
Notation ssteps := (ssteps boom tboom).

Ltac perm := apply (Permutation_count_occ Nat.eq_dec); let x := fresh "x" in intros x;
  repeat match goal with H : Permutation _ _ |- _ => let Q := fresh "Q" in pose proof (proj1 (Permutation_count_occ Nat.eq_dec _ _) H x) as Q; clear H end;
  repeat match goal with Q : context [count_occ _ (_ ++ _) _] |- _ => rewrite !count_occ_app in Q end;
  rewrite ?count_occ_app; cbn [count_occ] in *; repeat destruct (Nat.eq_dec _ _); lia.

Definition Inv (ad : list nat) (d : dest) : Prop :=
  (d_closed d = true -> d_fin d = []) /\ exists lost, Permutation ad (d_ran d ++ d_fin d ++ lost) /\ (quiet tboom -> lost = []).
Lemma Inv_once : forall ad d, Inv ad d -> once tboom ad d.
Proof.
  intros ad d (H1 & lost & H2 & H3). split; [|split; [|exact H1]].
  - intros t. pose proof (proj1 (Permutation_count_occ Nat.eq_dec _ _) H2 t) as Q. rewrite !count_occ_app in Q. lia.
  - intros q. rewrite (H3 q), app_nil_r in H2. exact H2.
Qed.
Lemma exec_Inv : forall ad t (d : dest), Inv ad d -> Inv (ad ++ [t]) (fst (exec t d)).
Proof.
  intros ad t d (H1 & lost & H2 & H3). split; [exact H1|]. exists lost. split; [|exact H3]. cbn. perm.
Qed.
Lemma exec_all_spec : forall l (d : dest), exists l2, let d' := fst (exec_all l d) in
  d_told d' = d_told d /\ d_closed d' = d_closed d /\ d_fin d' = d_fin d /\ Permutation (d_ran d ++ l) (d_ran d' ++ l2) /\ (quiet tboom -> l2 = [] /\ snd (exec_all l d) = false).
Proof.
  induction l as [|t l IH]; intros d; cbn.
  - exists []. rewrite app_nil_r. auto 10.
  - destruct (tboom t) eqn:Et; cbn.
    + exists l. split; [auto|]. split; [auto|]. split; [auto|]. split; [now rewrite <- app_assoc|]. intros q. rewrite q in Et. discriminate.
    + destruct (IH (mkDest (d_told d) (d_closed d) (d_fin d) (d_ran d ++ [t]))) as (l2 & I1 & I2 & I3 & I4 & I5). exists l2. cbn in *. rewrite <- app_assoc in I4. auto 10.
Qed.
Lemma unsub_spec : forall ad (d : dest), Inv ad d -> let d' := fst (unsub d) in Inv ad d' /\ d_closed d' = true /\ d_told d' = d_told d.
Proof.
  intros ad d (H1 & lost & H2 & H3). unfold PanicModel.unsub. destruct (d_closed d) eqn:Ec.
  - cbn. split; [|auto]. split; [auto|]. exists lost. auto.
  - destruct (exec_all_spec (d_fin d) (mkDest (d_told d) true [] (d_ran d))) as (l2 & I1 & I2 & I3 & I4 & I5). cbn zeta in *. cbn [d_told d_closed d_fin d_ran] in *.
    split; [|split; [now rewrite I2|now rewrite I1]]. split; [auto|]. exists (l2 ++ lost). rewrite I3. split.
    + perm.
    + intros q. rewrite (H3 q). destruct (I5 q) as [-> _]. reflexivity.
Qed.
Lemma add_Inv : forall ad t (d : dest), Inv ad d -> Inv (ad ++ [t]) (fst (add t d)) /\ d_told (fst (add t d)) = d_told d.
Proof.
  intros ad t d H. unfold PanicModel.add. destruct (d_closed d) eqn:Ec; [split; [now apply exec_Inv|reflexivity]|]. destruct H as (H1 & lost & H2 & H3). split; [|reflexivity].
  split; [discriminate|]. exists lost. split; [|auto]. cbn. perm.
Qed.
Lemma tell_Inv : forall ad c d, Inv ad d -> Inv ad (fst (tell c d)).
Proof.
  intros ad c d H. unfold PanicModel.tell. destruct (d_closed d) eqn:Ec; [exact H|].
  assert (H' : Inv ad (mkDest (d_told d ++ [c]) false (d_fin d) (d_ran d))).
  { destruct H as (H1 & lost & H2 & H3). split; [discriminate|]. exists lost. auto. }
  destruct (boom _); [exact H'|]. destruct c; [exact H'|apply unsub_spec, H'|apply unsub_spec, H'].
Qed.
Definition op_adds (o : op A E) : list nat := match o with OAdd t => [t] | _ => [] end.
Lemma under_dest : forall f (m : lock A E), l_dest (fst (under f m)) = fst (f (l_dest m)) /\ snd (under f m) = snd (f (l_dest m)) /\ l_poison (fst (under f m)) = (l_poison m || snd (f (l_dest m)))%bool.
Proof. intros f m. unfold under. destruct (f (l_dest m)) as [d p]. auto. Qed.
Lemma arc_op_spec : forall ad o m, Inv ad (l_dest m) -> Inv (ad ++ op_adds o) (l_dest (fst (arc_op o m))) /\
  (l_poison m = true -> d_told (l_dest (fst (arc_op o m))) = d_told (l_dest m) /\ l_poison (fst (arc_op o m)) = true /\
     ((forall t, o = OAdd t -> tboom t = false) -> d_closed (l_dest (fst (arc_op o m))) = true)).
Proof.
  intros ad o m H. destruct (unsub_spec H) as (U1 & U2 & U3). destruct o as [c| |t]; cbn [PanicModel.arc_op op_adds]; rewrite ?app_nil_r.
  - destruct (l_poison m) eqn:Ep.
    + destruct (under_dest unsub m) as (D1 & D2 & D3). rewrite D1, D3, Ep. auto.
    + destruct (under_dest (tell c) m) as (D1 & _). rewrite D1. split; [now apply tell_Inv|discriminate].
  - destruct (under_dest unsub m) as (D1 & D2 & D3). rewrite D1, D3. split; [auto|]. intros ->. auto.
  - destruct (l_poison m) eqn:Ep.
    + set (f := fun d : dest => _). destruct (under_dest f m) as (D1 & D2 & D3). rewrite D1, D3, Ep. unfold f. pose proof (exec_Inv t H) as X.
      destruct (exec t (l_dest m)) as [d1 p] eqn:Ex. unfold PanicModel.exec in Ex. injection Ex as Ed Ep'. destruct p.
      * split; [exact X|]. intros _. split; [now subst d1|]. split; [auto|]. intros Q. specialize (Q t eq_refl). congruence.
      * destruct (unsub_spec X) as (V1 & V2 & V3). cbn [fst] in V1, V2, V3. split; [auto|]. intros _. split; [rewrite V3; now subst d1|auto].
    + destruct (under_dest (add t) m) as (D1 & _). rewrite D1. destruct (add_Inv t H). split; [auto|discriminate].
Qed.

(** *** Histories. *)
Definition adds1 (alive : bool) (h : hop A E) : list nat :=
  match h with HArc (OAdd t) => if alive then [t] else [] | HWeak (OAdd t) => [t] | _ => [] end.
Lemma hstep_spec : forall ad s h, Inv ad (l_dest (a_lock s)) -> (a_alive s = false -> d_closed (l_dest (a_lock s)) = true) ->
  let s' := hstep s h in Inv (ad ++ adds1 (a_alive s) h) (l_dest (a_lock s')) /\ (a_alive s' = false -> d_closed (l_dest (a_lock s')) = true) /\
  a_alive s' = (a_alive s && match h with HDrop => false | _ => true end)%bool /\
  (l_poison (a_lock s) = true -> d_told (l_dest (a_lock s')) = d_told (l_dest (a_lock s)) /\ l_poison (a_lock s') = true).
Proof.
  intros ad s h H Hd. unfold PanicModel.hstep. destruct (a_alive s) eqn:Ea.
  - assert (G : forall o, adds1 true (HArc o) = op_adds o /\ adds1 true (HWeak o) = op_adds o) by (intros [| |]; auto).
    destruct h as [o|o|].
    1, 2: destruct (G o) as [G1 G2]; rewrite ?G1, ?G2; destruct (arc_op_spec o _ H) as [P1 P2]; destruct (arc_op o (a_lock s)) as [m p] eqn:Eo; cbn [fst] in P1, P2;
      cbn [a_alive a_lock andb]; (split; [exact P1|]); (split; [discriminate|]); (split; [reflexivity|]); intros Q; destruct (P2 Q) as (R1 & R2 & _); auto.
    destruct (unsub_spec H) as (U1 & U2 & U3). destruct (unsub (l_dest (a_lock s))) as [d p]. cbn in *. rewrite app_nil_r. auto 10.
  - specialize (Hd eq_refl). destruct h as [[| |]|[| |t]|]; cbn [adds1]; rewrite ?app_nil_r; try (cbn; rewrite ?Ea; auto 10; fail).
    pose proof (exec_Inv t H) as X. destruct (exec t (l_dest (a_lock s))) as [d p] eqn:Ex. unfold PanicModel.exec in Ex. injection Ex as Ed _. cbn in *. split; [exact X|]. split; [intros _; now subst d|]. split; [auto|]. intros Q. split; [now subst d|auto].
Qed.
Lemma hsteps_spec : forall h ad s, Inv ad (l_dest (a_lock s)) -> (a_alive s = false -> d_closed (l_dest (a_lock s)) = true) ->
  let s' := hsteps s h in Inv (ad ++ added (a_alive s) h) (l_dest (a_lock s')) /\ (a_alive s' = false -> d_closed (l_dest (a_lock s')) = true) /\
  (l_poison (a_lock s) = true -> d_told (l_dest (a_lock s')) = d_told (l_dest (a_lock s)) /\ l_poison (a_lock s') = true).
Proof.
  induction h as [|x h IH]; intros ad s H Hd; cbn.
  - rewrite app_nil_r. auto.
  - destruct (@hstep_spec ad s x H Hd) as (S1 & S2 & S3 & S4). destruct (IH _ _ S1 S2) as (I1 & I2 & I3). rewrite <- app_assoc, S3 in I1.
    assert (Q : adds1 (a_alive s) x ++ added (a_alive s && match x with HDrop => false | _ => true end) h = added (a_alive s) (x :: h)).
    { destruct x as [[| |]|[| |]|]; cbn; rewrite ?andb_true_r, ?andb_false_r; auto. destruct (a_alive s); auto. }
    rewrite Q in I1. split; [exact I1|]. split; [exact I2|]. intros P. destruct (S4 P) as [P1 P2]. destruct (I3 P2) as [P3 P4]. split; [etransitivity; [exact P3|exact P1]|exact P4].
Qed.
Lemma Inv0 : Inv [] (l_dest (a_lock (@arcs0 A E))).
Proof. split; [discriminate|]. exists []. auto. Qed.

Lemma arc_once : forall h, once tboom (added true h) (l_dest (a_lock (hsteps arcs0 h))).
Proof. intros h. apply Inv_once. refine (proj1 (@hsteps_spec h [] arcs0 Inv0 _)). discriminate. Qed.
Lemma arc_dropped : forall h, a_alive (hsteps arcs0 h) = false -> d_closed (l_dest (a_lock (hsteps arcs0 h))) = true.
Proof. intros h. refine (proj1 (proj2 (@hsteps_spec h [] arcs0 Inv0 _))). discriminate. Qed.
Lemma arc_silent : forall h1 h2, l_poison (a_lock (hsteps arcs0 h1)) = true ->
  d_told (l_dest (a_lock (hsteps arcs0 (h1 ++ h2)))) = d_told (l_dest (a_lock (hsteps arcs0 h1))).
Proof.
  intros h1 h2 P. unfold PanicModel.hsteps. rewrite fold_left_app. fold (hsteps arcs0 h1). fold (hsteps (hsteps arcs0 h1) h2).
  destruct (@hsteps_spec h1 [] arcs0 Inv0) as (I1 & I2 & _); [discriminate|]. now apply (@hsteps_spec h2 _ _ I1 I2).
Qed.
Lemma arc_closes : forall h o x, l_poison (a_lock (hsteps arcs0 h)) = true -> a_alive (hsteps arcs0 h) = true ->
  (forall t, o = OAdd t -> tboom t = false) -> x = HArc o \/ x = HWeak o -> d_closed (l_dest (a_lock (hsteps arcs0 (h ++ [x])))) = true.
Proof.
  intros h o x P Al Ho Hx. unfold PanicModel.hsteps. rewrite fold_left_app. fold (hsteps arcs0 h). cbn [fold_left]. unfold PanicModel.hstep. rewrite Al.
  destruct (@hsteps_spec h [] arcs0 Inv0) as (I1 & _); [discriminate|]. destruct (arc_op_spec o _ I1) as [_ Q]. destruct (Q P) as (_ & _ & Q3). specialize (Q3 Ho).
  destruct Hx as [-> | ->]; destruct (arc_op o _) as [m p]; exact Q3.
Qed.
(** The lock is poisoned as soon as a call panicked. *)
Lemma arc_op_poison : forall o m, l_poison (fst (arc_op o m)) = (l_poison m || snd (arc_op o m))%bool.
Proof.
  intros o m. destruct o as [c| |t]; cbn [PanicModel.arc_op]; try (destruct (l_poison m) eqn:Ep); match goal with |- context [under ?f m] => destruct (under_dest f m) as (_ & D2 & D3); rewrite D2, D3; now rewrite ?Ep end.
Qed.
Lemma arc_poisoned : forall h, ~ In HDrop h -> (l_poison (a_lock (hsteps arcs0 h)) = true <-> 0 < a_panics (hsteps arcs0 h)).
Proof.
  intros h Hn. assert (G : forall h s, ~ In HDrop h -> a_alive s = true -> (l_poison (a_lock s) = true <-> 0 < a_panics s) -> (l_poison (a_lock (hsteps s h)) = true <-> 0 < a_panics (hsteps s h))).
  { clear. induction h as [|x h IH]; intros s Hn Ha Hs; cbn; [auto|]. apply IH; [intros Q; apply Hn; now right| |].
    - unfold PanicModel.hstep. rewrite Ha. destruct x as [o|o|]; [destruct (arc_op o _); auto|destruct (arc_op o _); auto|destruct Hn; now left].
    - unfold PanicModel.hstep. rewrite Ha. destruct x as [o|o|]; [| |destruct Hn; now left]; pose proof (arc_op_poison o (a_lock s)) as Q; destruct (arc_op o (a_lock s)) as [m p]; cbn [fst snd] in Q; cbn; rewrite Q; destruct p; cbn; rewrite ?orb_true_r, ?orb_false_r; auto; split; auto; lia. }
  apply G; auto. cbn. split; [discriminate|lia].
Qed.

(** *** SharedSubscriber. *)
(** The queue is empty unless the lock is poisoned. *)
Definition SI (ad : list nat) (s : sh A E) : Prop :=
  Inv ad (l_dest (s_lock s)) /\ (l_poison (s_lock s) = false -> s_queue s = []) /\ (s_alive s = false -> d_closed (l_dest (s_lock s)) = true).
Lemma lock_Inv : forall f ad ad' (m : lock A E), Inv ad (l_dest m) -> (forall d, Inv ad d -> Inv ad' (fst (f d))) -> Inv ad' (l_dest (fst (under f m))).
Proof. intros f ad ad' m H Hf. destruct (under_dest f m) as (-> & _). auto. Qed.
Definition ok (ad ad' : list nat) (f : act A E) : Prop :=
  forall s, SI ad s -> s_alive s = true -> SI ad' (fst (f s)) /\ s_alive (fst (f s)) = true /\ (l_poison (s_lock s) = true -> d_told (l_dest (s_lock (fst (f s)))) = d_told (l_dest (s_lock s)) /\ l_poison (s_lock (fst (f s))) = true).
Lemma on_dest_eq : forall f (s : sh A E), on_dest f s = (set_lock s (fst (under f (s_lock s))) (snd (under f (s_lock s))), snd (under f (s_lock s))).
Proof. intros f s. unfold on_dest. destruct (under f (s_lock s)); auto. Qed.
Lemma set_lock_SI : forall ad ad' s m p, SI ad s -> s_alive s = true -> Inv ad' (l_dest m) -> (l_poison m = false -> l_poison (s_lock s) = false) -> SI ad' (set_lock s m p) /\ s_alive (set_lock s m p) = true.
Proof. intros ad ad' s m p (H1 & H2 & H3) Ha Hm Hp. split; [|exact Ha]. split; [exact Hm|]. split; [cbn; auto|]. cbn. congruence. Qed.
Lemma try_apply_same : forall ad s, SI ad s -> try_apply boom tboom s = (s, false).
Proof. intros ad s (_ & H & _). unfold try_apply. destruct (s_queue s) eqn:Q; auto. destruct (l_poison (s_lock s)); auto. specialize (H eq_refl). discriminate. Qed.
Lemma apply_queue_nil : forall s, s_queue s = [] -> apply_queue boom tboom s = (s, false).
Proof. intros s H. unfold apply_queue. rewrite H. cbn. destruct s; cbn in *. now subst. Qed.
Lemma defer_SI : forall ad n s, SI ad s -> l_poison (s_lock s) = true -> SI ad (defer n s).
Proof. intros ad n s (H1 & H2 & H3) Hp. unfold defer. destruct (s_flag s); [split; auto|]. split; [exact H1|]. split; [cbn; congruence|exact H3]. Qed.
Lemma defer_fields : forall n (s : sh A E), s_lock (defer n s) = s_lock s /\ s_alive (defer n s) = s_alive s.
Proof. intros n s. unfold defer. destruct (s_flag s); auto. Qed.
(** What an operation does. *)
Lemma sh_op_spec : forall ad o, ok ad (ad ++ op_adds o) (sh_op o).
Proof.
  intros ad o s H Ha. assert (Hi := proj1 H). assert (Hq := proj1 (proj2 H)). destruct o as [c| |t]; cbn [op_adds]; rewrite ?app_nil_r.
  - cbn [PanicModel.sh_op]. unfold andthen. destruct (is_closed s).
    + rewrite (try_apply_same H). cbn. auto.
    + set (s1 := match c with GNext _ => s | _ => set_ended s end). assert (H1 : SI ad s1) by (destruct c; exact H). assert (E1 : s_lock s1 = s_lock s /\ s_alive s1 = true /\ s_queue s1 = s_queue s) by (destruct c; auto). destruct E1 as (E1 & E2 & E3).
      unfold attempt. destruct (l_poison (s_lock s1)) eqn:Ep.
      * rewrite (try_apply_same (defer_SI (NTell c) H1 Ep)). cbn [fst]. destruct (defer_fields (NTell c) s1) as [F1 F2]. rewrite F1, F2, E1. split; [now apply defer_SI|]. split; [auto|]. rewrite E1 in Ep. auto.
      * unfold andthen. rewrite apply_queue_nil by (rewrite E3; apply Hq; congruence). rewrite on_dest_eq, E1. destruct (under_dest (tell c) (s_lock s)) as (D1 & D2 & D3).
        rewrite E1 in Ep. destruct (@set_lock_SI ad ad s1 (fst (under (tell c) (s_lock s))) (snd (under (tell c) (s_lock s))) H1 E2) as [S1 S2]; [rewrite D1; now apply tell_Inv|rewrite E1; auto|].
        destruct (snd (under (tell c) (s_lock s))) eqn:Ed; cbn [fst].
        -- split; [exact S1|]. split; [exact S2|]. congruence.
        -- rewrite (try_apply_same S1). cbn [fst]. split; [exact S1|]. split; [exact S2|]. congruence.
  - cbn [PanicModel.sh_op]. unfold andthen. destruct (s_unsub s).
    + rewrite (try_apply_same H). cbn. auto.
    + assert (H1 : SI ad (set_unsub s)) by exact H. unfold attempt. cbn [set_unsub s_lock]. destruct (l_poison (s_lock s)) eqn:Ep.
      * rewrite (try_apply_same (defer_SI NUns H1 Ep)). cbn [fst]. destruct (defer_fields NUns (set_unsub s)) as [F1 F2]. rewrite F1, F2. split; [now apply defer_SI|]. split; auto.
      * unfold andthen. rewrite apply_queue_nil by (apply Hq; auto). unfold pure. rewrite on_dest_eq. cbn [set_flag set_unsub s_lock]. destruct (under_dest unsub (s_lock s)) as (D1 & D2 & D3).
        destruct (@set_lock_SI ad ad (set_flag (set_unsub s)) (fst (under unsub (s_lock s))) (snd (under unsub (s_lock s))) H Ha) as [S1 S2]; [rewrite D1; now apply unsub_spec|auto|].
        destruct (snd (under unsub (s_lock s))) eqn:Ed; cbn [fst].
        -- split; [exact S1|]. split; [exact S2|]. congruence.
        -- rewrite (try_apply_same S1). cbn [fst]. split; [exact S1|]. split; [exact S2|]. congruence.
  - cbn [PanicModel.sh_op]. destruct (arc_op_spec (OAdd t) _ Hi) as [P1 P2]. pose proof (arc_op_poison (OAdd t) (s_lock s)) as P3. destruct (arc_op (OAdd t) (s_lock s)) as [m p]. cbn [fst snd op_adds] in *.
    destruct (@set_lock_SI ad (ad ++ [t]) s m p H Ha) as [S1 S2]; auto; [rewrite P3; intros Q; apply orb_false_iff in Q; tauto|]. split; [auto|]. split; [auto|]. intros Q. destruct (P2 Q) as (R1 & R2 & _). auto.
Qed.
Lemma ssteps_dead : forall h (s : sh A E), s_alive s = false -> ssteps s h = s.
Proof. induction h as [|x h IH]; intros s H; cbn; auto. assert (Q : sstep s x = s) by (unfold PanicModel.sstep; now rewrite H). rewrite Q. now apply IH. Qed.
Lemma ssteps_spec : forall h ad s, SI ad s -> s_alive s = true -> let s' := ssteps s h in
  SI (ad ++ sadded h) s' /\ (l_poison (s_lock s) = true -> d_told (l_dest (s_lock s')) = d_told (l_dest (s_lock s)) /\ l_poison (s_lock s') = true).
Proof.
  induction h as [|x h IH]; intros ad s H Ha; cbn.
  - rewrite app_nil_r. auto.
  - destruct x as [o|].
    + destruct (sh_op_spec o H Ha) as (S1 & S2 & S3). assert (E1 : sstep s (SOp o) = fst (sh_op o s)) by (unfold PanicModel.sstep; now rewrite Ha). rewrite E1.
      destruct (IH _ _ S1 S2) as [I1 I2]. rewrite <- app_assoc in I1.
      assert (Q : op_adds o ++ sadded h = sadded (SOp o :: h)) by (destruct o; auto). rewrite Q in I1. split; [exact I1|]. intros P. destruct (S3 P) as [P1 P2]. destruct (I2 P2) as [P3 P4]. split; [etransitivity; [exact P3|exact P1]|exact P4].
    + assert (E1 : sstep s SDrop = let '(d, p2) := unsub (l_dest (s_lock s)) in set_dead (set_lock s (mkLock d (l_poison (s_lock s))) p2)) by (unfold PanicModel.sstep; now rewrite Ha, (try_apply_same H)). rewrite E1. assert (Hi := proj1 H). destruct (unsub_spec Hi) as (U1 & U2 & U3). destruct (unsub (l_dest (s_lock s))) as [d p]. cbn [fst] in *.
      match goal with |- context [fold_left _ h ?z] => pose proof (ssteps_dead h z eq_refl) as ZZ; unfold PanicModel.ssteps in ZZ; rewrite ZZ end.
      cbn. rewrite app_nil_r. split; [|auto]. split; [exact U1|]. split; [apply (proj1 (proj2 H))|]. auto.
Qed.
Lemma SI0 : SI [] sh0.
Proof. split; [exact Inv0|]. split; [auto|discriminate]. Qed.
Lemma shared_once : forall h, once tboom (sadded h) (l_dest (s_lock (ssteps sh0 h))).
Proof. intros h. apply Inv_once. apply (@ssteps_spec h [] sh0 SI0 eq_refl). Qed.
Lemma shared_dropped : forall h, s_alive (ssteps sh0 h) = false -> d_closed (l_dest (s_lock (ssteps sh0 h))) = true.
Proof. intros h. destruct (@ssteps_spec h [] sh0 SI0 eq_refl) as [(_ & _ & H) _]. exact H. Qed.
Lemma shared_silent : forall h1 h2, l_poison (s_lock (ssteps sh0 h1)) = true ->
  d_told (l_dest (s_lock (ssteps sh0 (h1 ++ h2)))) = d_told (l_dest (s_lock (ssteps sh0 h1))).
Proof.
  intros h1 h2 P. unfold PanicModel.ssteps. rewrite fold_left_app. fold (ssteps sh0 h1). fold (ssteps (ssteps sh0 h1) h2).
  destruct (@ssteps_spec h1 [] sh0 SI0 eq_refl) as [I1 _]. destruct (s_alive (ssteps sh0 h1)) eqn:Ea; [now apply (@ssteps_spec h2 _ _ I1 Ea)|]. now rewrite ssteps_dead.
Qed.
(** Once poisoned, the destination stays as it is. *)
Lemma shared_stuck_op : forall s h, l_poison (s_lock s) = true -> match h with SOp (OAdd _) | SDrop => False | _ => True end -> s_lock (sstep s h) = s_lock s.
Proof.
  intros s h P Hh. unfold PanicModel.sstep. destruct (s_alive s); auto. destruct h as [[c| |t]|]; try contradiction; cbn [PanicModel.sh_op]; unfold andthen.
  - destruct (is_closed s); [unfold try_apply; rewrite P; destruct (s_queue s); auto|]. unfold attempt.
    set (s1 := match c with GNext _ => s | _ => set_ended s end). assert (E1 : s_lock s1 = s_lock s) by (destruct c; auto). rewrite E1, P. destruct (defer_fields (NTell c) s1) as [F1 _].
    unfold try_apply. rewrite F1, E1, P. destruct (s_queue (defer _ s1)); cbn; congruence.
  - destruct (s_unsub s); [unfold try_apply; rewrite P; destruct (s_queue s); auto|]. unfold attempt. cbn [set_unsub s_lock]. rewrite P. destruct (defer_fields NUns (set_unsub s)) as [F1 _].
    unfold try_apply. rewrite F1. cbn [set_unsub s_lock]. rewrite P. destruct (s_queue (defer _ (set_unsub s))); cbn; exact F1.
Qed.
Lemma shared_stuck : forall h1 h2, l_poison (s_lock (ssteps sh0 h1)) = true -> calls_only h2 ->
  l_dest (s_lock (ssteps sh0 (h1 ++ h2))) = l_dest (s_lock (ssteps sh0 h1)).
Proof.
  intros h1 h2 P C. unfold PanicModel.ssteps. rewrite fold_left_app. fold (ssteps sh0 h1). fold (ssteps (ssteps sh0 h1) h2). revert P. generalize (ssteps sh0 h1) as s. induction C as [|x h Hx C IH]; intros s P; cbn; auto.
  pose proof (@shared_stuck_op s x P Hx) as Q. etransitivity; [apply IH; now rewrite Q|now rewrite Q].
Qed.
End P.
