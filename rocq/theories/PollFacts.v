(** The keyboard and resource observables. *)
From Coq Require Import Permutation.
From Verif Require Import Base SubscrModel SchedModel TimeModel TimeSpec TimeProofs PollModel PollSpec PollProofs.
Set Implicit Arguments.

Lemma always_imp {A B E} (f g : list (tev A B E) -> tev A B E -> Prop) tr :
  (forall p e s, tr = p ++ e :: s -> always f p -> f p e -> g p e) -> always f tr -> always g tr.
Proof.
  intros H F p e s Hp. apply (H _ _ _ Hp); [|apply (F _ _ _ Hp)].
  intros p' e' s' ->. apply (F p' e' (s' ++ e :: s)). rewrite Hp, <- app_assoc. reflexivity.
Qed.
Lemma always_cut {A B E} (f : list (tev A B E) -> tev A B E -> Prop) p e : always f (p ++ [e]) -> always f p /\ f p e.
Proof.
  intros H. split; [|apply (H p e []); auto]. intros p' e' s' ->. apply (H p' e' (s' ++ [e])). rewrite <- app_assoc. reflexivity.
Qed.

Lemma d_tick_at {A B E S Q} (s0 : S) step (q0 : Q) read (tr : list (tev A B E)) :
  d_tick (due_at s0 step q0 read tr) = ticking tr /\ d_sub (due_at s0 step q0 read tr) = some (since tr).
Proof.
  assert (Hl : forall d : due B S Q, d_tick (look read d) = d_tick d /\ d_sub (look read d) = d_sub d).
  { intros d. unfold look. destruct (d_miss d); auto. destruct (read _ _) as [[]|]; auto. }
  induction tr as [|e tr IH] using rev_ind; [auto|]. destruct IH as [I1 I2]. rewrite due_snoc, ticking_snoc, since_snoc.
  destruct e as [|t| |[]|c]; cbn -[look]; auto.
  - destruct (d_sub _) eqn:Es. { rewrite Es, I1. destruct (since tr); auto. }
    destruct (since tr); [discriminate|]. destruct (d_tick _) eqn:Et; rewrite ?(proj1 (Hl _)), ?(proj2 (Hl _)); auto.
  - destruct (d_sub _) eqn:Es; rewrite ?(proj1 (Hl _)), ?(proj2 (Hl _)); auto.
Qed.

(** *** Resource. *)
Section Resource.
Variables R B E X : Type.
Variable reader : R -> B.
Variables on_added on_changed : bool.
Notation V := (bool * option R)%type.
Variable v0 : V.
Variable down : list (ncall B E) -> bool * list (req X).
Variable user : X -> nat -> list (tev V B E) -> X * bool * list (cmd V E X).
Hypothesis Hpushless : forall x t l a, ~ In (CUp (Nxt a)) (snd (user x t l)).
Notation T := (@resource R B E X reader on_added on_changed v0).
Notation task := (@resource_task R B E X reader on_added on_changed).

Definition rread (existed : bool) (v : V) : option (bool * list B) :=
  Some match v with
       | (_, None) => (false, [])
       | (ch, Some r) => (true, if existed then if on_changed && ch then [reader r] else []
                                else if on_added then [reader r] else [])
       end.
Lemma rtask q (w : world V B E V bool X) : match rread q (w_st w) with
  | None => exists q', task (tell true down) q w = (q', true, set_panic w)
  | Some (q', bs) => exists q'' done, task (tell true down) q w = (q'', done, emit down bs w) /\
      (w_shut (emit down bs w) = false -> done = false /\ q'' = q')
  end.
Proof.
  unfold resource_task, rread. destruct (w_st w) as [ch [r|]]; cbn [fst snd].
  - do 2 eexists. split.
    + match goal with |- (?a, ?b, ?c) = (_, _, ?d) => replace d with c; [reflexivity|] end.
      destruct q, on_changed, on_added, ch; reflexivity.
    + intros Hs. split; auto. rewrite <- Hs. f_equal. destruct q, on_changed, on_added, ch; reflexivity.
  - exists false, (w_shut w). auto.
Qed.

Notation due_at := (@due_at V B E V bool v0 (fun v' _ => v') false rread).
Lemma sights_at tr : 
  let st := fold_left (fun (x : bool * bool * V * list V) (e : tev V B E) =>
    let '(sub, tick, v, vs) := x in
    match e with
    | XSub => if sub then x else (true, tick, v, if tick then v :: vs else vs)
    | XTick _ => (sub, true, v, if sub then v :: vs else vs)
    | XEnd => (sub, false, v, vs)
    | XUp (Nxt v') => (sub, tick, v', vs)
    | _ => x
    end) tr (false, false, v0, []) in
  let d := due_at tr in
  st = (d_sub d, d_tick d, d_view d, sights v0 tr) /\ d_miss d = false /\
  d_q d = (match sights v0 tr with (_, Some _) :: _ => true | _ => false end) /\
  (d_sub d = false -> sights v0 tr = [] /\ d_todo d = []) /\
  (d_sub d = true -> d_tick d = true -> resource_due reader on_added on_changed v0 tr (d_todo d)).
Proof.
  induction tr as [|e tr IH] using rev_ind; [repeat split; discriminate|].
  destruct IH as (I1 & I2 & I3 & I4 & I5). unfold resource_due, sights in *. rewrite !fold_left_app, due_snoc in *. cbn [fold_left] in *.
  rewrite I1 in *. cbn [snd] in *. set (sg := snd (fold_left _ tr _)) in *. clearbody sg. set (d := due_at tr) in *. clearbody d.
  destruct d as [sb tk vw dq td ms]. cbn in *. subst ms dq. clear I1.
  assert (Hlook : forall sg' v, sg' = v :: sg -> forall sb, 
    look (rread) (mkDue sb true v (match sg with (_, Some _) :: _ => true | _ => false end) [] false) =
    mkDue sb true v (match sg' with (_, Some _) :: _ => true | _ => false end) 
      (match sg' with
       | (changed, Some r) :: (_, Some _) :: _ => if on_changed && changed then [reader r] else []
       | (_, Some r) :: _ => if on_added then [reader r] else []
       | _ => []
       end) false).
  { intros ? v -> sb'. unfold look, rread. cbn. destruct v as [ch [r|]]; cbn; auto. destruct sg as [|[c' [r'|]] sg]; auto. }
  destruct e as [|t| |[v'|x| |]|c]; cbn -[look]; auto.
  - destruct sb; cbn -[look]; auto. destruct (I4 eq_refl) as [-> ->]. destruct tk; cbn -[look].
    + rewrite (Hlook [vw] vw eq_refl true). cbn. repeat split; auto; discriminate.
    + repeat split; auto; discriminate.
  - destruct sb; cbn -[look].
    + rewrite (Hlook (vw :: sg) vw eq_refl true). cbn. repeat split; auto; discriminate.
    + destruct (I4 eq_refl) as [-> ->]. repeat split; auto; discriminate.
  - repeat split; auto; try discriminate; apply I4; auto.
Qed.

Theorem resource_ok fuel depth h m : syss T down user fuel (start T depth) h = Fine m ->
  let tr := w_tr (m_world m) in
  always (polled down (resource_due reader on_added on_changed v0)) tr /\ answered down (@unsubscribes V B E) tr /\
  w_panic (m_world m) = false.
Proof.
  intros H. destruct (@poll_ok V B E V bool X v0 _ false task down user Hpushless rread rtask ltac:(discriminate) _ _ _ _ H) as (H1 & H2 & H3).
  split; [|split; [auto|]].
  - revert H1. apply always_imp. intros p e s Hp Hal [He Hq].
    destruct (sights_at p) as (_ & I2 & I3 & I4 & I5). destruct (d_tick_at v0 (fun v' _ => v') false rread p) as [Ht Hs].
    destruct e as [|t| |c|[b|x| |]]; cbn in *; auto.
    + intros Ho Hsi. destruct (He Ho Hsi) as [He'|He']; [congruence|]. rewrite <- He'. apply I5; rewrite ?Ht, ?Hs; auto.
      destruct (since p); auto; congruence.
    + destruct He as (He1 & He2 & rest & [He3|He3]); [congruence|]. split; auto. split; auto. exists rest. rewrite <- He3.
      apply I5; rewrite ?Ht; auto. destruct (d_sub _); auto. destruct (I4 eq_refl) as [_ I6]. rewrite I6 in He3. destruct (tick_values p); discriminate.
  - destruct (w_panic _); auto. specialize (H3 eq_refl). destruct (sights_at (w_tr (m_world m))) as (_ & I2 & _). cbn zeta in I2. congruence.
Qed.
End Resource.

(** *** Keyboard. *)
Section Keyboard.
Variables K E X : Type.
Variable eqb : K -> K -> bool.
Hypothesis Heqb : forall j k, eqb j k = true <-> j = k.
Variable order : list K -> list K.
Hypothesis Horder : forall l, Permutation (order l) l.
Variable mode : kmode.
Variable s0 : keys K.
Hypothesis Hs0 : NoDup (ks_down s0) /\ NoDup (ks_went_down s0) /\ NoDup (ks_went_up s0).
Variable down : list (ncall K E) -> bool * list (req X).
Variable user : X -> nat -> list (tev (kop K) K E) -> X * bool * list (cmd (kop K) E X).
Hypothesis Hpushless : forall x t l a, ~ In (CUp (Nxt a)) (snd (user x t l)).
Notation T := (@keyboard K E X eqb order mode (Some s0)).
Notation task := (@keyboard_task K E X order mode).
Notation W := (world (kop K) K E (option (keys K)) unit X).

Lemma has_in k l : has eqb k l = true <-> In k l.
Proof.
  unfold has. rewrite existsb_exists. split.
  - intros (x & H1 & H2). apply Heqb in H2. subst. auto.
  - intros H. exists k. split; auto. apply Heqb. auto.
Qed.
Lemma has_not k l : has eqb k l = false <-> ~ In k l.
Proof. rewrite <- has_in. destruct (has eqb k l); split; congruence. Qed.
Lemma insert_in j k l : In j (insert eqb k l) <-> j = k \/ In j l.
Proof.
  unfold insert. destruct (has eqb k l) eqn:Eh.
  - apply has_in in Eh. split; auto. intros [->|]; auto.
  - rewrite in_app_iff. simpl. split; [intros [|[|[]]]; auto|intros [|]; auto].
Qed.
Lemma NoDup_snoc' {Y} (l : list Y) x : NoDup l -> ~ In x l -> NoDup (l ++ [x]).
Proof.
  intros H1 H2. apply (Permutation_NoDup (l := x :: l)); [|constructor; auto].
  apply Permutation_cons_append.
Qed.
Lemma insert_nodup k l : NoDup l -> NoDup (insert eqb k l).
Proof.
  unfold insert. destruct (has eqb k l) eqn:Eh; auto. apply has_not in Eh. intros. apply NoDup_snoc'; auto.
Qed.

Definition world_after (os : list (kop K)) : option (keys K) := fold_left (fun s a => kstep eqb a s) os (Some s0).
Lemma is_down_snoc k os o : is_down eqb s0 k (os ++ [o]) = match o with
    | KPress j => if eqb k j then true else is_down eqb s0 k os
    | KRelease j => if eqb k j then false else is_down eqb s0 k os
    | KClear => is_down eqb s0 k os end.
Proof. unfold is_down. rewrite fold_left_app. reflexivity. Qed.
Lemma went_snoc d k os o : went eqb s0 d k (os ++ [o]) <->
  (o = (if d then KPress k else KRelease k) /\ is_down eqb s0 k os = negb d) \/ (o <> KClear /\ went eqb s0 d k os).
Proof.
  split.
  - intros [(os1 & os2 & H1 & H2 & H3)|[H1 H2]].
    + destruct os2 as [|o' os2] using rev_ind.
      * apply app_inj_tail in H1. destruct H1 as [-> ->]. auto.
      * rewrite app_comm_cons, app_assoc in H1. apply app_inj_tail in H1. destruct H1 as [-> <-]. right.
        rewrite in_app_iff in H2. split; [intros ->; simpl in H2; tauto|]. left. exists os1, os2. tauto.
    + rewrite in_app_iff in H1. right. split; [intros ->; simpl in H1; tauto|]. right. tauto.
  - intros [[-> H]|[H1 [(os1 & os2 & -> & H2 & H3)|[H2 H3]]]].
    + left. exists os, []. simpl. tauto.
    + left. exists os1, (os2 ++ [o]). rewrite <- app_assoc, in_app_iff. simpl. repeat split; auto.
      intros [?|[?|[]]]; auto.
    + right. rewrite in_app_iff. simpl. split; auto. intros [?|[?|[]]]; auto.
Qed.

Lemma world_ok os : exists s, world_after os = Some s /\
  (NoDup (ks_down s) /\ NoDup (ks_went_down s) /\ NoDup (ks_went_up s)) /\
  forall k, (In k (ks_down s) <-> is_down eqb s0 k os = true) /\
    (In k (ks_went_down s) <-> went eqb s0 true k os) /\ (In k (ks_went_up s) <-> went eqb s0 false k os).
Proof.
  induction os as [|o os IH] using rev_ind.
  - exists s0. split; auto. split; auto. intros k. split; [|split].
    + unfold is_down. cbn. change (existsb (eqb k) (ks_down s0)) with (has eqb k (ks_down s0)). symmetry. apply has_in.
    + unfold went. split; [right; split; simpl; auto|]. intros [([|] & os2 & H & _)|[_ H]]; auto; discriminate.
    + unfold went. split; [right; split; simpl; auto|]. intros [([|] & os2 & H & _)|[_ H]]; auto; discriminate.
  - destruct IH as (s & I1 & (N1 & N2 & N3) & I2). unfold world_after in *. rewrite fold_left_app. cbn [fold_left]. rewrite I1. cbn [kstep].
    eexists. split; [reflexivity|]. destruct o as [j|j|].
    + destruct (has eqb j (ks_down s)) eqn:Eh; cbn [ks_down ks_went_down ks_went_up].
      * split; auto. intros k. destruct (I2 k) as (J1 & J2 & J3). rewrite is_down_snoc, !went_snoc, J1, J2, J3.
        apply has_in in Eh. apply I2 in Eh.
        split; [|split].
        -- destruct (eqb k j) eqn:Ek; [|tauto]. apply Heqb in Ek. subst. tauto.
        -- split; [intros; right; split; auto; discriminate|]. intros [[H1 H2]|[_ H]]; auto. injection H1 as ->. cbn in H2. congruence.
        -- split; [intros; right; split; auto; discriminate|]. intros [[H1 H2]|[_ H]]; auto. discriminate.
      * split; [auto using insert_nodup|]. intros k. destruct (I2 k) as (J1 & J2 & J3). rewrite is_down_snoc, !went_snoc, !insert_in, J1, J2, J3.
        apply has_not in Eh. assert (Ed : is_down eqb s0 j os = false).
        { destruct (is_down eqb s0 j os) eqn:Ed; auto. apply I2 in Ed. tauto. }
        split; [|split].
        -- destruct (eqb k j) eqn:Ek. { apply Heqb in Ek. subst. tauto. }
           split; auto. intros [->|]; auto. assert (eqb j j = true) by (apply Heqb; auto). congruence.
        -- split; [intros [->|]; auto; right; split; auto; discriminate|]. intros [[H1 H2]|[_ H]]; auto. injection H1 as ->. auto.
        -- split; [intros; right; split; auto; discriminate|]. intros [[H1 H2]|[_ H]]; auto. discriminate.
    + destruct (has eqb j (ks_down s)) eqn:Eh; cbn [ks_down ks_went_down ks_went_up].
      * split; [auto using insert_nodup, NoDup_filter|]. intros k. destruct (I2 k) as (J1 & J2 & J3).
        rewrite is_down_snoc, !went_snoc, !insert_in, filter_In, J1, J2, J3.
        apply has_in in Eh. apply I2 in Eh. assert (Hjj : eqb j j = true) by (apply Heqb; auto).
        split; [|split].
        -- destruct (eqb k j) eqn:Ek. { apply Heqb in Ek. subst. rewrite Hjj. simpl. split; [intros []|]; discriminate. }
           destruct (eqb j k) eqn:Ek'. { apply Heqb in Ek'. subst. congruence. } simpl. tauto.
        -- split; [intros; right; split; auto; discriminate|]. intros [[H1 H2]|[_ H]]; auto. discriminate.
        -- split; [intros [->|]; auto; right; split; auto; discriminate|]. intros [[H1 H2]|[_ H]]; auto. injection H1 as ->. auto.
      * split; auto. intros k. destruct (I2 k) as (J1 & J2 & J3). rewrite is_down_snoc, !went_snoc, J1, J2, J3.
        apply has_not in Eh. assert (Ed : is_down eqb s0 j os = false).
        { destruct (is_down eqb s0 j os) eqn:Ed; auto. apply I2 in Ed. tauto. }
        split; [|split].
        -- destruct (eqb k j) eqn:Ek; [|tauto]. apply Heqb in Ek. subst. rewrite Ed. tauto.
        -- split; [intros; right; split; auto; discriminate|]. intros [[H1 H2]|[_ H]]; auto. discriminate.
        -- split; [intros; right; split; auto; discriminate|]. intros [[H1 H2]|[_ H]]; auto. injection H1 as ->. cbn in H2. congruence.
    + cbn [ks_down ks_went_down ks_went_up]. split; [split; auto using NoDup_nil|]. intros k. destruct (I2 k) as (J1 & J2 & J3).
      rewrite is_down_snoc, !went_snoc. split; [auto|]. split; (split; [intros []|intros [[H _]|[H _]]; congruence]).
Qed.

Definition kread (q : unit) (s : option (keys K)) : option (unit * list K) :=
  match s with None => None | Some s => Some (tt, order (looked_at mode s)) end.
Lemma each_key_emit ks : forall w : W, each_key (tell true down) ks w = (fst (each_key (tell true down) ks w), emit down ks w) /\
  (w_shut (emit down ks w) = false -> fst (each_key (tell true down) ks w) = false).
Proof.
  induction ks as [|k ks IH]; intros w; [auto|]. cbn [each_key]. destruct (w_shut w) eqn:Hs.
  - rewrite emit_shut by auto. cbn [fst]. split; auto. congruence.
  - destruct (IH (tell true down (Nxt k) w)) as [I1 I2]. rewrite I1 at 1. split; auto.
Qed.
Lemma ktask q (w : W) : match kread q (w_st w) with
  | None => exists q', task (tell true down) q w = (q', true, set_panic w)
  | Some (q', bs) => exists q'' done, task (tell true down) q w = (q'', done, emit down bs w) /\
      (w_shut (emit down bs w) = false -> done = false /\ q'' = q')
  end.
Proof.
  unfold keyboard_task, kread. destruct (w_st w) as [s|]; [|eauto].
  destruct (each_key_emit (order (looked_at mode s)) w) as [I1 I2]. rewrite I1. eauto 6.
Qed.

Notation due_at := (@due_at (kop K) K E (option (keys K)) unit (Some s0) (kstep eqb) tt kread).
Lemma view_at tr : d_view (due_at tr) = world_after (ops tr) /\ d_miss (due_at tr) = false.
Proof.
  assert (Hl : forall d : due K (option (keys K)) unit, d_view (look kread d) = d_view d).
  { intros d. unfold look. destruct (d_miss d); auto. destruct (kread _ _) as [[]|]; auto. }
  assert (Hm : forall d : due K (option (keys K)) unit, d_view d = world_after (ops tr) -> d_miss (look kread d) = d_miss d).
  { intros d Hd. unfold look. destruct (d_miss d) eqn:Em; auto. rewrite Hd. destruct (world_ok (ops tr)) as (s & -> & _). reflexivity. }
  revert Hm. induction tr as [|e tr IH] using rev_ind; [auto|]. intros _. 
  assert (Hm : forall d : due K (option (keys K)) unit, d_view d = world_after (ops tr) -> d_miss (look kread d) = d_miss d).
  { intros d Hd. unfold look. destruct (d_miss d) eqn:Em; auto. rewrite Hd. destruct (world_ok (ops tr)) as (s & -> & _). reflexivity. }
  destruct (IH Hm) as [I1 I2]. rewrite due_snoc, ops_snoc. unfold world_after in *. rewrite fold_left_app.
  destruct e as [|t| |[a|x| |]|c]; cbn -[look kstep]; auto.
  - destruct (d_sub _); auto. destruct (d_tick _); auto. rewrite Hl, Hm; auto.
  - destruct (d_sub _); auto. rewrite Hl, Hm; auto.
  - rewrite I1. auto.
Qed.
Lemma todo_at tr : always (quiet (A:=kop K) (B:=K) (E:=E)) tr ->
  (d_sub (due_at tr) = false -> d_todo (due_at tr) = []) /\
  (d_sub (due_at tr) = true -> d_tick (due_at tr) = true -> exists s, world_after (ops tr) = Some s /\ d_todo (due_at tr) = order (looked_at mode s)).
Proof.
  induction tr as [|e tr IH] using rev_ind; [split; [auto|discriminate]|]. intros Hal. apply always_cut in Hal. destruct Hal as [Hal Hq].
  destruct (IH Hal) as [I1 I2]. destruct (view_at tr) as [V1 V2]. destruct (world_ok (ops tr)) as (s & Hs & _).
  rewrite due_snoc, ops_snoc. 
  assert (Hl : forall sb tk q td, look kread (mkDue sb tk (world_after (ops tr)) q td false) = mkDue sb tk (world_after (ops tr)) tt (order (looked_at mode s)) false).
  { intros. unfold look, kread. cbn. rewrite Hs. reflexivity. }
  destruct e as [|t| |[a|x| |]|c]; cbn -[look kstep]; rewrite ?app_nil_r; auto.
  - destruct (d_sub _) eqn:Es; rewrite ?Es; auto. rewrite V1, V2. destruct (d_tick _) eqn:Et; cbn -[look]; [rewrite Hl; cbn|]; split; try discriminate; eauto.
  - destruct (d_sub _) eqn:Es; rewrite ?V1, ?V2, ?Hl; cbn; split; try discriminate; eauto.
  - split; auto. discriminate.
  - split; auto. cbn in Hq. rewrite (proj1 (d_tick_at _ _ _ _ _)), (proj1 Hq). discriminate.
Qed.

Theorem keyboard_ok fuel depth h m : syss T down user fuel (start T depth) h = Fine m ->
  let tr := w_tr (m_world m) in
  always (polled down (keys_due eqb s0 mode)) tr /\ answered down (@unsubscribes (kop K) K E) tr /\
  w_panic (m_world m) = false.
Proof.
  intros H. destruct (@poll_ok (kop K) K E (option (keys K)) unit X (Some s0) (kstep eqb) tt task down user Hpushless kread ktask ltac:(intros [] [] [|]; auto) _ _ _ _ H) as (H1 & H2 & H3).
  split; [|split; [auto|]].
  - revert H1. apply always_imp. intros p e s Hp Hal [He Hq].
    assert (Hqs : always (quiet (A:=kop K) (B:=K) (E:=E)) p) by (revert Hal; apply always_imp; intros ? ? ? ? ? HG; apply HG).
    destruct (view_at p) as [V1 V2]. destruct (todo_at Hqs) as [I4 I5]. destruct (d_tick_at (Some s0) (kstep eqb) tt kread p) as [Ht Hs].
    assert (Hdue : d_sub (due_at p) = true -> d_tick (due_at p) = true -> keys_due eqb s0 mode p (d_todo (due_at p))).
    { intros G1 G2. destruct (I5 G1 G2) as (v & G3 & ->). destruct (world_ok (ops p)) as (v' & G4 & (N1 & N2 & N3) & G5).
      rewrite G3 in G4. injection G4 as <-. split.
      - apply (Permutation_NoDup (Permutation_sym (Horder _))). destruct mode; auto.
      - intros k. specialize (G5 k). transitivity (In k (looked_at mode v)).
        + split; apply Permutation_in; [apply Horder|apply Permutation_sym, Horder].
        + destruct mode; cbn; tauto. }
    destruct e as [|t| |c|[b|x| |]]; cbn in *; auto.
    + intros Ho Hsi. destruct (He Ho Hsi) as [He'|He']; [congruence|]. rewrite <- He'. apply Hdue; rewrite ?Ht, ?Hs; auto.
      destruct (since p); auto; congruence.
    + destruct He as (He1 & He2 & rest & [He3|He3]); [congruence|]. split; auto. split; auto. exists rest. rewrite <- He3.
      apply Hdue; rewrite ?Ht; auto. destruct (d_sub _); auto. rewrite I4 in He3 by auto. destruct (tick_values p); discriminate.
  - destruct (w_panic _); auto. specialize (H3 eq_refl). rewrite (proj2 (view_at _)) in H3. congruence.
Qed.
End Keyboard.
