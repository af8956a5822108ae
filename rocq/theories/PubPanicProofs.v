(** Proofs about PubPanicModel.v. *)
From Verif Require Import Base SubjectModel SubjectSpec PubPanicModel.
Set Implicit Arguments.

Section Log.
Context {A E X : Type}.
Implicit Types s : subject A E X.
Definition grows s s1 : Prop := exists l, sj_log s1 = sj_log s ++ l.
Lemma grows_same s s1 : sj_log s1 = sj_log s -> grows s s1.
Proof. exists []. now rewrite app_nil_r. Qed.
Lemma grows_trans s s1 s2 : grows s s1 -> grows s1 s2 -> grows s s2.
Proof. intros [l H] [l1 H1]. exists (l ++ l1). now rewrite H1, H, app_assoc. Qed.
Lemma grows_event s i e c : grows s (with_event s i e c).
Proof. exists [(i, e)]. reflexivity. Qed.
Lemma grows_fold {B} (f : subject A E X -> B -> subject A E X) : (forall s b, grows s (f s b)) ->
  forall l s, grows s (fold_left f l s).
Proof. intros H. induction l; cbn; intros; [now apply grows_same|]. eapply grows_trans; [apply H|apply IHl]. Qed.
Lemma grows_history s s1 j : grows s s1 -> exists l, history s1 j = history s j ++ l.
Proof. intros [l H]. unfold history. rewrite H, filter_app, map_app. eauto. Qed.
Lemma history_event s i e c j : history (with_event s i e c) j = history s j ++ (if Nat.eqb i j then [e] else []).
Proof. unfold history. cbn. rewrite filter_app, map_app. cbn. destruct (Nat.eqb i j); auto. Qed.
End Log.

Section Grows.
Context {A E : Type}.
Context (prog : nat -> list (sev A E) -> list (ucmd A E) * bool).
Context (ord : nat -> list nat -> list nat).
Context (P : policy A E).
Notation subject := (subject A E (po_store P)).
Implicit Types s : subject.

Lemma grows_defer s m : grows s (mdefer s m).
Proof. unfold mdefer. destruct (_ && _); now apply grows_same. Qed.
Lemma grows_greet : forall r s i, grows s (greet prog s i r).
Proof.
  intros r s i. apply grows_fold. clear. intros s a. destruct (_ && _); [|now apply grows_same].
  cbn zeta. destruct (fst (prog _ _)); [apply grows_event|now apply grows_same].
Qed.
Lemma grows_reject s i : grows s (reject prog s i).
Proof.
  unfold reject. destruct (_ && _); [|now apply grows_same]. cbn zeta.
  set (e := match sj_err s with Some e => SE e | None => _ end).
  destruct e; try match goal with |- context [match fst ?x with _ => _ end] => destruct (fst x) end; eapply grows_event.
Qed.
Lemma grows_inner me s c : grows s (inner_call prog me s c).
Proof.
  unfold inner_call. destruct (running s); [|now apply grows_same]. cbn zeta.
  apply (@grows_trans _ _ _ s (with_made s c)); [now apply grows_same|].
  destruct c; cbn [sj_next_id with_made]; try (destruct (sj_closed _); [now apply grows_same|]).
  - apply grows_defer.
  - eapply grows_trans; [|apply grows_defer]. now apply grows_same.
  - eapply grows_trans; [|apply grows_defer]. now apply grows_same.
  - destruct (sj_uns _); [now apply grows_same|]. eapply grows_trans; [|apply grows_defer]. now apply grows_same.
  - eapply grows_trans; [eapply grows_trans|].
    2: apply (grows_greet r (with_id (with_made s (KSub r)) (S (sj_next_id s))) (sj_next_id s)).
    + now apply grows_same.
    + destruct (sj_closed _); [eapply grows_trans; [|apply grows_reject]; now apply grows_same|].
      destruct (running _); [apply grows_defer|now apply grows_same].
  - destruct (_ || _); [now apply grows_same|]. eapply grows_trans; [|apply grows_defer]. now apply grows_same.
Qed.
Lemma grows_inner_user me s u : grows s (inner_user prog P me s u).
Proof.
  unfold inner_user. destruct (running s); [|now apply grows_same]. cbn zeta.
  eapply grows_trans; [|apply grows_fold; intros; apply grows_inner]. now apply grows_same.
Qed.
Lemma grows_tell s i e : grows s (tell prog P s i e).
Proof.
  unfold tell. destruct (_ && _); [|now apply grows_same]. cbn zeta.
  eapply grows_trans; [apply grows_event|]. apply grows_fold. intros. apply grows_inner_user.
Qed.
Lemma grows_broadcast s e : grows s (broadcast prog ord P s e).
Proof.
  unfold broadcast. eapply grows_trans; [|apply grows_fold; intros; apply grows_tell]. now apply grows_same.
Qed.
Lemma grows_mapply s m : grows s (mapply prog ord P s m).
Proof.
  destruct m; cbn [mapply]; try apply grows_broadcast; try now apply grows_same.
destruct (existsb _ _); [|now apply grows_same]. eapply grows_trans; [|apply grows_tell]. now apply grows_same.
Qed.
Lemma grows_one s m : grows s (mapply_one prog ord P s m).
Proof.
  unfold mapply_one. destruct (running s); [|now apply grows_same].
  assert (H : forall m, grows s (
        let s0 := if sj_flag s then s else mapply prog ord P s m in
        let s1 := if is_terminal m then mapply prog ord P s0 MUns else s0 in
        if is_unsub m || is_terminal m then with_flag s1 else s1)).
  { clear m. intros m. cbn zeta. set (s0 := if sj_flag s then s else _).
    assert (H0 : grows s s0) by (unfold s0; destruct (sj_flag s); [now apply grows_same|apply grows_mapply]).
    set (s1 := if is_terminal m then _ else _).
    assert (H1 : grows s s1) by (unfold s1; destruct (is_terminal m); auto; eapply grows_trans; [exact H0|apply grows_mapply]).
    destruct (_ || _); exact H1. }
  destruct m; try apply H. destruct (sj_shut s i); [now apply grows_same|].
  destruct (sj_flag s); [apply grows_tell|apply grows_mapply].
Qed.
Lemma grows_queue : forall n s, grows s (mapply_queue prog ord P n s).
Proof.
  induction n as [|n IH]; intros s; cbn [mapply_queue]; destruct (running s); try now apply grows_same.
  destruct (sj_queue s) as [|m ms]; [now apply grows_same|].
  eapply grows_trans; [|apply IH].
  eapply (grows_trans (s1 := fold_left (mapply_one prog ord P) (m :: ms) (with_queue s []))); [|now apply grows_same].
  eapply grows_trans; [|apply grows_fold; intros; apply grows_one]. now apply grows_same.
Qed.
Lemma grows_try s : grows s (mtry_apply prog ord P s).
Proof. unfold mtry_apply. destruct (sj_queue s); [now apply grows_same|apply grows_queue]. Qed.
Lemma grows_outer s c : grows s (outer_call prog ord P s c).
Proof.
  unfold outer_call. destruct (running s); [|now apply grows_same]. cbn zeta.
  assert (Q : forall s1 s2 m, grows s s1 -> sj_log s2 = sj_log s1 -> grows s (
     let s3 := mapply_queue prog ord P mdepth s2 in if running s3 then mapply prog ord P s3 m else s3)).
  { intros s1 s2 m H H1. cbn zeta. eapply grows_trans; [exact H|]. eapply (grows_trans (s1 := s2)); [now apply grows_same|].
    eapply grows_trans; [apply grows_queue|]. destruct (running _); [apply grows_mapply|now apply grows_same]. }
  assert (M : grows s (with_made s c)) by now apply grows_same.
  destruct c; cbn zeta in *.
  - eapply grows_trans; [|apply grows_try]. destruct (sj_closed _); auto. eapply Q; [exact M|auto].
  - eapply grows_trans; [|apply grows_try]. destruct (sj_closed _); auto. eapply Q; [exact M|auto].
  - eapply grows_trans; [|apply grows_try]. destruct (sj_closed _); auto. eapply Q; [exact M|auto].
  - eapply grows_trans; [|apply grows_try]. destruct (sj_uns _); auto.
    eapply grows_trans; [exact M|].
    eapply (grows_trans (s1 := with_obs (with_made s KUns) (sj_cmp (with_made s KUns)) true (sj_err (with_made s KUns)))); [now apply grows_same|].
    eapply grows_trans; [apply grows_queue|]. destruct (running _); [|now apply grows_same].
    eapply (grows_trans (s1 := with_flag _)); [|apply grows_mapply]. now apply grows_same.
  - set (i := sj_next_id _). set (s1 := mtry_apply prog ord P _).
    assert (H1 : grows s s1).
    { unfold s1. eapply grows_trans; [|apply grows_try]. eapply grows_trans; [|apply grows_greet]. now apply grows_same. }
    destruct (running s1); auto. destruct (sj_closed s1).
    + eapply grows_trans; [exact H1|]. eapply grows_trans; [|apply grows_reject]. now apply grows_same.
    + eapply grows_trans; [exact H1|]. eapply grows_trans; [apply grows_queue|].
      destruct (running _); [|now apply grows_same]. eapply grows_trans; [|apply grows_try]. apply grows_mapply.
  - destruct (_ || _); auto. eapply Q; [exact M|auto].
Qed.
End Grows.

(** *** The run until the first panic. *)
Section Sim.
Context {A E : Type}.
Context (prog : nat -> list (sev A E) -> list (ucmd A E) * bool).
Context (boom : nat -> list (sev A E) -> bool).
Context (ord : nat -> list nat -> list nat).
Context (P : policy A E).
Notation subject := (subject A E (po_store P)).
Implicit Types s t x : subject.

Definition cut (j : nat) t s : Prop := exists h d l,
  history t j = h ++ d /\ history s j = h ++ l /\ (d = [] \/ d = [SU] /\ sj_shut t j = true).
Definition rel t s : Prop := (t = s /\ running t = true) \/ (running t = false /\ forall j, cut j t s).
Definition frozen t t1 : Prop := running t = false -> running t1 = false /\ sj_log t1 = sj_log t /\ sj_shut t1 = sj_shut t.

Lemma cut_refl j t : cut j t t.
Proof. exists (history t j), [], []. rewrite app_nil_r. auto. Qed.
Lemma cut_log j t s t1 : cut j t s -> sj_log t1 = sj_log t -> sj_shut t1 = sj_shut t -> cut j t1 s.
Proof. intros (h & d & l & H) H1 H2. exists h, d, l. unfold history in *. rewrite H1, H2. exact H. Qed.
Lemma cut_grows j t s s1 : cut j t s -> grows s s1 -> cut j t s1.
Proof.
  intros (h & d & l & H1 & H2 & H3) Hg. destruct (grows_history j Hg) as [l1 H4].
  exists h, d, (l ++ l1). rewrite H4, H2, app_assoc. auto.
Qed.
Lemma rel_refl t : rel t t.
Proof. destruct (running t) eqn:H; [left|right]; auto. split; auto. intros. apply cut_refl. Qed.
Lemma rel_eq t s : t = s -> rel t s.
Proof. intros ->. apply rel_refl. Qed.
Lemma frozen_refl t : frozen t t.
Proof. intros H. auto. Qed.
Lemma frozen_trans t t1 t2 : frozen t t1 -> frozen t1 t2 -> frozen t t2.
Proof. intros H H1 H2. destruct (H H2) as (X1 & X2 & X3). destruct (H1 X1) as (Y1 & Y2 & Y3). split; [auto|split; congruence]. Qed.
Lemma frozen_fold {B} (f : subject -> B -> subject) : (forall t b, frozen t (f t b)) -> forall l t, frozen t (fold_left f l t).
Proof. intros H. induction l; cbn; intros; [apply frozen_refl|]. eapply frozen_trans; [apply H|apply IHl]. Qed.

Lemma rel_step (f g : subject -> subject) : (forall x, running x = true -> rel (f x) (g x)) ->
  (forall t, frozen t (f t)) -> (forall s, grows s (g s)) -> forall t s, rel t s -> rel (f t) (g s).
Proof.
  intros H1 H2 H3 t s [[-> Hr]|[Hr Hc]]; auto. right. destruct (H2 t Hr) as (X1 & X2 & X3). split; auto.
  intros j. eapply cut_grows; [|apply H3]. eapply cut_log; eauto.
Qed.
Lemma rel_fold {B} (f g : subject -> B -> subject) : (forall x b, running x = true -> rel (f x b) (g x b)) ->
  (forall t b, frozen t (f t b)) -> (forall s b, grows s (g s b)) ->
  forall l t s, rel t s -> rel (fold_left f l t) (fold_left g l s).
Proof.
  intros H1 H2 H3. induction l as [|b l IH]; cbn; intros t s H; auto.
  apply IH. apply (@rel_step (fun t => f t b) (fun s => g s b)); auto.
Qed.
Lemma rel_halt t s h1 : (forall j, cut j t s) -> rel (with_halt t h1) s.
Proof. intros H. right. split; auto. Qed.

Ltac frz := let H := fresh in intros H; repeat split; auto.

Lemma sim_greet at_ i r : forall t s, rel t s -> rel (pgreet prog boom at_ t i r) (greet prog s i r).
Proof.
  unfold pgreet, greet. apply rel_fold.
  - intros x a Hr. rewrite Hr. cbn [andb]. destruct (sj_shut x i); cbn [negb]; [apply rel_refl|]. cbn zeta.
    destruct (fst (prog i (history x i ++ [SN a]))); [|apply rel_refl].
    destruct (boom i (history x i ++ [SN a])); [|apply rel_refl].
    apply rel_halt. intros j.
    exists (history (with_event x i (SN a) (snd (prog i (history x i ++ [SN a])))) j),
      (if Nat.eqb i j then [SU] else []), [].
    split; [apply history_event|]. rewrite app_nil_r. split; auto.
    destruct (Nat.eqb i j) eqn:Hij; auto. right. split; auto. apply Nat.eqb_eq in Hij. subst.
    cbn. unfold setf. rewrite Nat.eqb_refl. auto.
  - intros t a H. rewrite H. cbn [andb]. auto.
  - intros s a. destruct (running s && negb (sj_shut s i)); [|now apply grows_same]. cbn zeta.
    destruct (fst (prog _ _)); [apply grows_event|now apply grows_same].
Qed.
Lemma frozen_greet at_ i r t : frozen t (pgreet prog boom at_ t i r).
Proof. apply frozen_fold. clear. intros t a H. rewrite H. cbn [andb]. auto. Qed.

Lemma sim_reject at_ i x : rel (preject prog boom at_ x i) (reject prog x i).
Proof.
  unfold preject, reject. destruct (running x && _); [|apply rel_refl]. cbn zeta.
  set (e := match sj_err x with Some e => SE e | None => _ end). clearbody e.
  set (s2 := with_event x i e true).
  set (s3 := if boom i _ then _ else _).
  assert (H : rel s3 s2).
  { unfold s3. destruct (boom _ _); [|apply rel_refl]. apply rel_halt. intros. apply cut_refl. }
  destruct e; try match goal with |- context [match fst ?y with _ => _ end] => destruct (fst y) end; auto; apply rel_refl.
Qed.
Lemma frozen_reject at_ i t : frozen t (preject prog boom at_ t i).
Proof. intros H. unfold preject. rewrite H. cbn [andb]. auto. Qed.

Lemma sim_inner at_ me c : forall t s, rel t s -> rel (pinner_call prog boom at_ me t c) (inner_call prog me s c).
Proof.
  apply rel_step.
  - intros x Hr. unfold pinner_call, inner_call. rewrite Hr. cbn zeta. destruct c; try apply rel_refl.
    set (x1 := with_id _ _). set (i := sj_next_id _).
    apply (@rel_step
      (fun t => if running t then if sj_closed t then preject prog boom at_ (with_taken t i) i else mdefer t (MAdd i) else t)
      (fun s => if sj_closed s then reject prog (with_taken s i) i else if running s then mdefer s (MAdd i) else s)).
    + intros y Hy. rewrite Hy. destruct (sj_closed y); [apply sim_reject|apply rel_refl].
    + intros y Hy. rewrite Hy. auto.
    + intros y. destruct (sj_closed y); [eapply grows_trans; [|apply grows_reject]; now apply grows_same|].
      destruct (running y); [apply grows_defer|now apply grows_same].
    + apply sim_greet. apply rel_refl.
  - intros t H. unfold pinner_call. rewrite H. auto.
  - intros. apply grows_inner.
Qed.
Lemma frozen_inner at_ me c t : frozen t (pinner_call prog boom at_ me t c).
Proof. intros H. unfold pinner_call. rewrite H. auto. Qed.

Lemma sim_inner_user at_ me u : forall t s, rel t s -> rel (pinner_user prog boom P at_ me t u) (inner_user prog P me s u).
Proof.
  apply rel_step.
  - intros x Hr. unfold pinner_user, inner_user. rewrite Hr. cbn zeta.
    apply rel_fold; intros; [apply sim_inner, rel_refl|apply frozen_inner|apply grows_inner|apply rel_refl].
  - intros t H. unfold pinner_user. rewrite H. auto.
  - intros. apply grows_inner_user.
Qed.
Lemma frozen_inner_user at_ me u t : frozen t (pinner_user prog boom P at_ me t u).
Proof. intros H. unfold pinner_user. rewrite H. auto. Qed.

Lemma sim_tell i e : forall t s, rel t s -> rel (ptell prog boom P t i e) (tell prog P s i e).
Proof.
  apply rel_step.
  - intros x Hr. unfold ptell, tell. rewrite Hr. cbn [andb]. destruct (negb _); [|apply rel_refl]. cbn zeta.
    set (r := prog i _).
    assert (H : rel (fold_left (pinner_user prog boom P (Some i) i) (fst r) (with_event x i e (ends e || snd r)))
                    (fold_left (inner_user prog P i) (fst r) (with_event x i e (ends e || snd r)))).
    { apply rel_fold; intros; [apply sim_inner_user, rel_refl|apply frozen_inner_user|apply grows_inner_user|apply rel_refl]. }
    destruct (running _ && _); auto. apply rel_halt. intros j. destruct H as [[-> _]|[_ H]]; auto. apply cut_refl.
  - intros t H. unfold ptell. rewrite H. auto.
  - intros. apply grows_tell.
Qed.
Lemma frozen_tell i e t : frozen t (ptell prog boom P t i e).
Proof. intros H. unfold ptell. rewrite H. auto. Qed.

Lemma sim_broadcast e : forall t s, rel t s -> rel (pbroadcast prog boom ord P t e) (broadcast prog ord P s e).
Proof.
  intros t s H. unfold pbroadcast, broadcast. destruct H as [[-> Hr]|[Hr Hc]].
  - apply rel_fold; intros; [apply sim_tell, rel_refl|apply frozen_tell|apply grows_tell|apply rel_refl].
  - right.
    destruct (@frozen_fold _ (fun s i => ptell prog boom P s i e) (fun t i => @frozen_tell i e t) (ord (sj_iter t) (sj_tbl t)) (with_iter t) Hr)
      as (X1 & X2 & X3).
    split; auto. intros j. eapply cut_grows; [eapply cut_log; [apply Hc| |]; eauto|].
    eapply (grows_trans (s1 := with_iter s)); [now apply grows_same|]. apply grows_fold. intros. apply grows_tell.
Qed.
Lemma frozen_broadcast e t : frozen t (pbroadcast prog boom ord P t e).
Proof.
  intros H. unfold pbroadcast. apply (@frozen_fold _ (fun s i => ptell prog boom P s i e) (fun t i => @frozen_tell i e t) _ (with_iter t) H).
Qed.
Lemma frozen_mapply m t : frozen t (pmapply prog boom ord P t m).
Proof.
  destruct m; cbn [pmapply]; try apply frozen_broadcast; try apply frozen_refl; try (intros H; auto; fail).
  intros H. destruct (existsb _ _); auto. apply (@frozen_tell i SU (with_tbl t (remove_id i (sj_tbl t))) H).
Qed.
Lemma sim_mapply m : forall t s, rel t s -> rel (pmapply prog boom ord P t m) (mapply prog ord P s m).
Proof.
  apply rel_step; [|intros; apply frozen_mapply|intros; apply grows_mapply].
  intros x Hr. destruct m; cbn [pmapply mapply]; try (apply sim_broadcast; apply rel_refl); try apply rel_refl.
  - destruct (sim_broadcast SU (rel_refl x)) as [[-> H]|[H1 H2]]; [apply rel_refl|]. right. split; auto.
  - destruct (existsb _ _); [|apply rel_refl]. apply sim_tell, rel_refl.
Qed.

Lemma frozen_one m t : frozen t (pmapply_one prog boom ord P t m).
Proof. intros H. unfold pmapply_one. rewrite H. auto. Qed.
Lemma sim_one m : forall t s, rel t s -> rel (pmapply_one prog boom ord P t m) (mapply_one prog ord P s m).
Proof.
  apply rel_step; [|intros; apply frozen_one|intros; apply grows_one].
  intros x Hr. unfold pmapply_one, mapply_one. rewrite Hr.
  assert (H : rel
    (let s := if sj_flag x then x else pmapply prog boom ord P x m in
     if running s then
       let s0 := if is_terminal m then pmapply prog boom ord P s MUns else s in
       if running s0 then if is_unsub m || is_terminal m then with_flag s0 else s0 else s0
     else s)
    (let s := if sj_flag x then x else mapply prog ord P x m in
     let s0 := if is_terminal m then mapply prog ord P s MUns else s in
     if is_unsub m || is_terminal m then with_flag s0 else s0)).
  { cbn zeta.
    apply (@rel_step
      (fun s => if running s then
         (fun s0 => if running s0 then if is_unsub m || is_terminal m then with_flag s0 else s0 else s0)
           (if is_terminal m then pmapply prog boom ord P s MUns else s) else s)
      (fun s => (fun s0 => if is_unsub m || is_terminal m then with_flag s0 else s0)
           (if is_terminal m then mapply prog ord P s MUns else s))).
    - intros y Hy. rewrite Hy.
      apply (@rel_step
        (fun s0 => if running s0 then if is_unsub m || is_terminal m then with_flag s0 else s0 else s0)
        (fun s0 => if is_unsub m || is_terminal m then with_flag s0 else s0)).
      + intros z Hz. rewrite Hz. apply rel_refl.
      + intros z Hz. rewrite Hz. auto.
      + intros z. destruct (_ || _); now apply grows_same.
      + destruct (is_terminal m); [apply sim_mapply|]; apply rel_refl.
    - intros y Hy. rewrite Hy. auto.
    - intros y. cbv beta. eapply (grows_trans (s1 := if is_terminal m then mapply prog ord P y MUns else y)).
      + destruct (is_terminal m); [apply grows_mapply|now apply grows_same].
      + destruct (_ || _); now apply grows_same.
    - destruct (sj_flag x); [apply rel_refl|apply sim_mapply, rel_refl]. }
  destruct m; auto. clear H. destruct (sj_shut x i); [apply rel_refl|].
  destruct (sj_flag x); [apply sim_tell|apply sim_mapply]; apply rel_refl.
Qed.

Lemma frozen_queue n t : frozen t (pmapply_queue prog boom ord P n t).
Proof. intros H. destruct n; cbn [pmapply_queue]; rewrite H; auto. Qed.
Lemma sim_queue : forall n t s, rel t s -> rel (pmapply_queue prog boom ord P n t) (mapply_queue prog ord P n s).
Proof.
  induction n as [|n IH]; apply rel_step; try (intros; apply frozen_queue); try (intros; apply grows_queue).
  - intros x Hr. cbn [pmapply_queue mapply_queue]. rewrite Hr. apply rel_refl.
  - intros x Hr. cbn [pmapply_queue mapply_queue]. rewrite Hr. destruct (sj_queue x) as [|m ms]; [apply rel_refl|]. cbn zeta.
    apply (@rel_step (fun s => if running s then pmapply_queue prog boom ord P n (clean P s) else s)
             (fun s => mapply_queue prog ord P n (clean P s))).
    + intros y Hy. rewrite Hy. apply IH, rel_refl.
    + intros y Hy. rewrite Hy. auto.
    + intros y. eapply (grows_trans (s1 := clean P y)); [now apply grows_same|apply grows_queue].
    + apply rel_fold; intros; [apply sim_one, rel_refl|apply frozen_one|apply grows_one|apply rel_refl].
Qed.
Lemma frozen_try t : frozen t (pmtry_apply prog boom ord P t).
Proof. intros H. unfold pmtry_apply. destruct (sj_queue t); auto. apply (@frozen_queue mdepth t H). Qed.
Lemma sim_try : forall t s, rel t s -> rel (pmtry_apply prog boom ord P t) (mtry_apply prog ord P s).
Proof.
  apply rel_step; [|intros; apply frozen_try|intros; apply grows_try].
  intros x Hr. unfold pmtry_apply, mtry_apply. destruct (sj_queue x); [apply rel_refl|apply sim_queue, rel_refl].
Qed.

Lemma sim_then m (f : subject -> subject) x : (forall y, sj_log (f y) = sj_log y) ->
  rel (let s := pmapply_queue prog boom ord P mdepth x in if running s then pmapply prog boom ord P (f s) m else s)
      (let s := mapply_queue prog ord P mdepth x in if running s then mapply prog ord P (f s) m else s).
Proof.
  intros Hf. cbn zeta.
  apply (@rel_step (fun s => if running s then pmapply prog boom ord P (f s) m else s)
                   (fun s => if running s then mapply prog ord P (f s) m else s)).
  - intros y Hy. rewrite Hy. apply sim_mapply, rel_refl.
  - intros y Hy. rewrite Hy. auto.
  - intros y. destruct (running y); [|now apply grows_same].
    eapply (grows_trans (s1 := f y)); [apply grows_same; auto|apply grows_mapply].
  - apply sim_queue, rel_refl.
Qed.

Lemma sim_outer c : forall t s, rel t s -> rel (pouter_call prog boom ord P t c) (outer_call prog ord P s c).
Proof.
  apply rel_step; [| |intros; apply grows_outer].
  2: { intros t H. unfold pouter_call. rewrite H. auto. }
  intros x Hr. unfold pouter_call, outer_call. rewrite Hr. destruct c; cbn zeta.
  - apply sim_try. destruct (sj_closed _); [apply rel_refl|]. apply (@sim_then _ (fun y => y)); auto.
  - apply sim_try. destruct (sj_closed _); [apply rel_refl|]. apply (@sim_then _ (fun y => y)); auto.
  - apply sim_try. destruct (sj_closed _); [apply rel_refl|]. apply (@sim_then _ (fun y => y)); auto.
  - apply sim_try. destruct (sj_uns _); [apply rel_refl|]. apply (@sim_then _ (fun y => with_flag y)); auto.
  - set (i := sj_next_id _). set (x1 := with_id _ _).
    assert (H : rel
      (let s := pgreet prog boom None x1 i r in
       if running s then
         let s := pmtry_apply prog boom ord P s in
         if running s then
           if sj_closed s then preject prog boom None (with_taken s i) i
           else let s := pmapply_queue prog boom ord P mdepth s in
                if running s then pmtry_apply prog boom ord P (pmapply prog boom ord P s (MAdd i)) else s
         else s
       else s)
      (let s := mtry_apply prog ord P (greet prog x1 i r) in
       if running s then
         if sj_closed s then reject prog (with_taken s i) i
         else let s := mapply_queue prog ord P mdepth s in
              if running s then mtry_apply prog ord P (mapply prog ord P s (MAdd i)) else s
       else s)).
    { cbn zeta.
      set (F := fun s => if running s then
           if sj_closed s then preject prog boom None (with_taken s i) i
           else let s := pmapply_queue prog boom ord P mdepth s in
                if running s then pmtry_apply prog boom ord P (pmapply prog boom ord P s (MAdd i)) else s
         else s).
      set (G := fun s => if running s then
         if sj_closed s then reject prog (with_taken s i) i
         else let s := mapply_queue prog ord P mdepth s in
              if running s then mtry_apply prog ord P (mapply prog ord P s (MAdd i)) else s
       else s).
      assert (HG : forall s, grows s (G s)).
      { intros s. unfold G. destruct (running s); [|now apply grows_same]. destruct (sj_closed s).
        - eapply grows_trans; [|apply grows_reject]. now apply grows_same.
        - cbn zeta. eapply grows_trans; [apply grows_queue|]. destruct (running (mapply_queue prog ord P mdepth s)); [|now apply grows_same].
          eapply grows_trans; [|apply grows_try]. apply grows_mapply. }
      assert (HFG : forall t s, rel t s -> rel (F t) (G s)).
      { apply rel_step; auto.
        - intros y Hy. unfold F, G. rewrite Hy. destruct (sj_closed y); [apply sim_reject|]. cbn zeta.
          apply (@rel_step (fun s => if running s then pmtry_apply prog boom ord P (pmapply prog boom ord P s (MAdd i)) else s)
             (fun s => if running s then mtry_apply prog ord P (mapply prog ord P s (MAdd i)) else s)).
          + intros z Hz. rewrite Hz. apply sim_try, sim_mapply, rel_refl.
          + intros z Hz. rewrite Hz. auto.
          + intros z. destruct (running z); [|now apply grows_same]. eapply grows_trans; [|apply grows_try]. apply grows_mapply.
          + apply sim_queue, rel_refl.
        - intros y Hy. unfold F. rewrite Hy. auto. }
      apply (@rel_step (fun s => if running s then F (pmtry_apply prog boom ord P s) else s)
                       (fun s => G (mtry_apply prog ord P s))).
      - intros y Hy. rewrite Hy. apply HFG, sim_try, rel_refl.
      - intros y Hy. rewrite Hy. auto.
      - intros y. eapply grows_trans; [apply grows_try|apply HG].
      - apply sim_greet, rel_refl. }
    cbn zeta in H. set (t1 := if running (pgreet _ _ _ _ _ _) then _ else _) in *.
    destruct H as [[-> H]|[H1 H2]]; [rewrite H; left; auto|rewrite H1].
    right. split; auto.
  - destruct (_ || _); [apply rel_refl|]. apply (@sim_then _ (fun y => y)); auto.
Qed.
Lemma frozen_outer c t : frozen t (pouter_call prog boom ord P t c).
Proof. intros H. unfold pouter_call. rewrite H. auto. Qed.

Lemma sim_user u : forall t s, rel t s -> rel (pouter_user prog boom ord P t u) (outer_user prog ord P s u).
Proof.
  apply rel_step.
  - intros x Hr. unfold pouter_user, outer_user. rewrite Hr. cbn zeta.
    apply rel_fold; intros; [apply sim_outer, rel_refl|apply frozen_outer|apply grows_outer|apply rel_refl].
  - intros t H. unfold pouter_user. rewrite H. auto.
  - intros s. unfold outer_user. destruct (running s); [|now apply grows_same]. cbn zeta.
    eapply grows_trans; [|apply grows_fold; intros; apply grows_outer]. now apply grows_same.
Qed.
End Sim.

Section Sweep.
Context {A E : Type}.
Context {P : policy A E}.
Notation subject := (subject A E (po_store P)).
Implicit Types s t : subject.

Definition alike s s1 : Prop :=
  sj_next_id s1 = sj_next_id s /\ sj_tbl s1 = sj_tbl s /\ sj_queue s1 = sj_queue s /\ sj_taken s1 = sj_taken s /\
  sj_closed s1 = sj_closed s /\ sj_err s1 = sj_err s /\ sj_cmp s1 = sj_cmp s /\ sj_flag s1 = sj_flag s /\
  sj_store s1 = sj_store s /\ sj_halt s1 = sj_halt s.
Lemma alike_refl s : alike s s. Proof. repeat split. Qed.
Lemma alike_trans s s1 s2 : alike s s1 -> alike s1 s2 -> alike s s2.
Proof. unfold alike. intuition congruence. Qed.
Lemma alike_stuck s s1 i : alike s s1 -> stuck P s1 i = stuck P s i.
Proof. intros (_ & H1 & H2 & _). unfold stuck. rewrite H1, H2. auto. Qed.

Lemma swept (b : subject -> nat -> bool) :
  (forall s s1 i, alike s s1 -> sj_shut s1 i = sj_shut s i -> b s1 i = b s i) ->
  forall l s, NoDup l ->
  let s1 := fold_left (fun s i => if b s i then s else with_event s i SU true) l s in
  alike s s1 /\ (forall i, history s1 i = history s i ++ (if existsb (Nat.eqb i) l && negb (b s i) then [SU] else [])) /\
  (forall i, sj_shut s1 i = sj_shut s i || existsb (Nat.eqb i) l && negb (b s i)).
Proof.
  intros Hb. induction l as [|j l IH]; intros s Hn; cbn zeta; cbn [fold_left].
  - split; [apply alike_refl|]. split; intros i; cbn; [now rewrite app_nil_r|now rewrite orb_false_r].
  - inversion Hn as [|? ? Hj Hl]; subst. set (s0 := if b s j then _ else _).
    destruct (IH s0 Hl) as (H1 & H2 & H3).
    assert (Ha : alike s s0) by (unfold s0; destruct (b s j); repeat split).
    assert (Hsh : forall i, i <> j -> sj_shut s0 i = sj_shut s i).
    { intros i Hi. unfold s0. destruct (b s j); auto. cbn. unfold setf. apply Nat.eqb_neq in Hi. rewrite Hi. auto. }
    split; [eapply alike_trans; eauto|].
    assert (Hnl : existsb (Nat.eqb j) l = false).
    { destruct (existsb (Nat.eqb j) l) eqn:X; auto. apply existsb_exists in X. destruct X as (k & K1 & K2).
      apply Nat.eqb_eq in K2. subst. tauto. }
    split; intros i; [rewrite H2|rewrite H3]; cbn [existsb]; destruct (Nat.eq_dec i j) as [->|Hi].
    + rewrite Hnl, Nat.eqb_refl. cbn [orb andb]. unfold s0. destruct (b s j); rewrite app_nil_r; cbn [negb]; auto.
      * now rewrite app_nil_r.
      * rewrite history_event, Nat.eqb_refl. auto.
    + apply Nat.eqb_neq in Hi. rewrite Hi. apply Nat.eqb_neq in Hi. cbn [orb].
      rewrite (Hb s s0 i Ha (Hsh i Hi)). f_equal. unfold s0. destruct (b s j); auto.
      rewrite history_event. replace (j =? i) with false by (symmetry; apply Nat.eqb_neq; auto). apply app_nil_r.
    + rewrite Hnl, Nat.eqb_refl. cbn [orb andb]. rewrite orb_false_r. unfold s0. destruct (b s j) eqn:X; cbn.
      * now rewrite orb_false_r.
      * unfold setf. rewrite Nat.eqb_refl. now rewrite orb_true_r.
    + rewrite (Hsh i Hi). apply Nat.eqb_neq in Hi. rewrite Hi. apply Nat.eqb_neq in Hi. cbn [orb].
      rewrite (Hb s s0 i Ha (Hsh i Hi)). auto.
Qed.

Lemma in_ids i n : existsb (Nat.eqb i) (seq 0 n) = (i <? n).
Proof.
  destruct (existsb (Nat.eqb i) (seq 0 n)) eqn:X; symmetry.
  - apply existsb_exists in X. destruct X as (k & K1 & K2). apply Nat.eqb_eq in K2. subst. apply in_seq in K1. apply Nat.ltb_lt. lia.
  - apply Nat.ltb_ge. destruct (le_lt_dec n i); auto. exfalso.
    assert (existsb (Nat.eqb i) (seq 0 n) = true); [|congruence].
    apply existsb_exists. exists i. split; [apply in_seq; lia|apply Nat.eqb_refl].
Qed.

Definition gone s (i : nat) : bool := (i <? sj_next_id s) && negb (sj_shut s i || stuck P s i || negb (sj_taken s i)).
Lemma sweep_spec s : alike s (sweep P s) /\
  (forall i, history (sweep P s) i = history s i ++ (if gone s i then [SU] else [])) /\
  (forall i, sj_shut (sweep P s) i = sj_shut s i || gone s i).
Proof.
  destruct (@swept (fun s i => sj_shut s i || stuck P s i || negb (sj_taken s i))) with (l := seq 0 (sj_next_id s)) (s := s) as (H1 & H2 & H3).
  - intros s0 s1 i Ha Hs. rewrite Hs, (alike_stuck i Ha). destruct Ha as (_ & _ & _ & -> & _). auto.
  - apply seq_NoDup.
  - split; auto. split; intros i; [etransitivity; [apply H2|]|etransitivity; [apply H3|]]; rewrite in_ids; auto.
Qed.

Lemma dropped_spec (t : psubject P) : forall i,
  history (dropped t) i = history (ps_subject t) i ++ (if (i <? sj_next_id (ps_subject t)) && negb (sj_shut (ps_subject t) i) then [SU] else []).
Proof.
  destruct (@swept (fun s i => sj_shut s i)) with (l := seq 0 (sj_next_id (ps_subject t))) (s := ps_subject t) as (H1 & H2 & H3).
  - auto.
  - apply seq_NoDup.
  - intros i. etransitivity; [apply H2|]. rewrite in_ids. auto.
Qed.
End Sweep.

(** *** Until the first panic. *)
Section Before.
Context {A E : Type}.
Context (prog : nat -> list (sev A E) -> list (ucmd A E) * bool).
Context (boom : nat -> list (sev A E) -> bool).
Context (ord : nat -> list nat -> list nat).
Context (P : policy A E).
Notation subject := (subject A E (po_store P)).
Implicit Types s t : subject.
Notation pcalls := (pcalls prog boom ord).
Notation pcall := (pcall prog boom ord).

Lemma running_halt s : running s = true <-> sj_halt s = None.
Proof. unfold running. destruct (sj_halt s); split; auto; discriminate. Qed.
Lemma caught_running s : running s = true -> caught P None s = mkPsubject P s None.
Proof. intros H. apply running_halt in H. unfold caught. rewrite H. auto. Qed.

Lemma frozen_user u t : frozen P t (pouter_user prog boom ord P t u).
Proof. intros H. unfold pouter_user. rewrite H. auto. Qed.

(** no panic so far *)
Definition quiet (us : list (ucmd A E)) : Prop := running (fold_left (pouter_user prog boom ord P) us (sj_new P)) = true.

Lemma rel_users us : rel P (fold_left (pouter_user prog boom ord P) us (sj_new P)) (outer_users prog ord P (sj_new P) us).
Proof.
  unfold outer_users. generalize (sj_new P) at 1 2 as s. intros s. assert (H : rel P s s) by apply rel_refl.
  revert H. generalize s at 1 3 as t. induction us as [|u us IH] in s |- *; cbn; intros t H; auto.
  apply IH. now apply sim_user.
Qed.

Lemma quiet_app us u : quiet (us ++ [u]) -> quiet us.
Proof.
  unfold quiet. rewrite fold_left_app. cbn [fold_left]. intros H.
  destruct (running (fold_left _ us _)) eqn:X; auto. destruct (frozen_user u _ X) as (Y & _). congruence.
Qed.

Lemma quiet_plain us : quiet us -> fold_left (pouter_user prog boom ord P) us (sj_new P) = outer_users prog ord P (sj_new P) us.
Proof. intros H. destruct (rel_users us) as [[-> _]|[X _]]; auto. unfold quiet in H. congruence. Qed.

Lemma before us : quiet us -> pcalls (pnew P) us = mkPsubject P (outer_users prog ord P (sj_new P) us) None.
Proof.
  intros H. rewrite <- (quiet_plain H). revert H. induction us as [|u us IH] using rev_ind; intros H; auto.
  unfold PubPanicModel.pcalls in *. rewrite fold_left_app. cbn [fold_left]. rewrite IH by (eapply quiet_app; eauto).
  unfold PubPanicModel.pcall. cbn [ps_poison ps_subject]. unfold quiet in H. rewrite fold_left_app in *. cbn [fold_left] in *.
  apply caught_running. auto.
Qed.

Lemma first_panic us u : quiet us -> forall j, exists h d l,
  history (ps_subject (pcalls (pnew P) (us ++ [u]))) j = h ++ d /\
  history (outer_users prog ord P (sj_new P) (us ++ [u])) j = h ++ l /\ (d = [] \/ d = [SU]).
Proof.
  intros H j. unfold PubPanicModel.pcalls. rewrite fold_left_app. fold (pcalls (pnew P) us). rewrite (before H). cbn [fold_left].
  unfold PubPanicModel.pcall. cbn [ps_poison ps_subject]. unfold outer_users. rewrite fold_left_app. cbn [fold_left].
  fold (outer_users prog ord P (sj_new P) us). set (s := outer_users _ _ _ _ us).
  set (t1 := pouter_user prog boom ord P s u). set (s1 := outer_user prog ord P s u).
  assert (Hr : rel P t1 s1) by apply sim_user, rel_refl.
  assert (Hc : cut P j t1 s1) by (destruct Hr as [[-> _]|[_ Hc]]; [apply cut_refl|apply Hc]).
  destruct Hc as (h & d & l & H1 & H2 & H3).
  assert (Hs : exists d1, history (sweep P (resumed P t1)) j = h ++ d1 /\ (d1 = [] \/ d1 = [SU])).
  { destruct (sweep_spec (resumed P t1)) as (_ & Hh & _). rewrite Hh. change (history (resumed P t1) j) with (history t1 j). rewrite H1.
    destruct (gone (resumed P t1) j) eqn:G.
    - assert (Hsh : sj_shut t1 j = false).
      { unfold gone in G. cbn [sj_shut resumed] in G. destruct (sj_shut t1 j); auto. cbn in G. now rewrite andb_false_r in G. }
      exists [SU]. split; auto. destruct H3 as [->|[_ X]]; [|congruence]. now rewrite app_nil_r.
    - exists d. rewrite app_nil_r. split; auto. tauto. }
  unfold caught. destruct (sj_halt t1) as [[| | |[p|]]|]; cbn [ps_subject].
  all: try (destruct Hs as (d1 & X1 & X2); exists h, d1, l; auto; fail).
  all: exists h, d, l; split; [auto|split; [auto|tauto]].
Qed.
End Before.

(** *** After a panic passed the locked table. *)
Section After.
Context {A E : Type}.
Context (prog : nat -> list (sev A E) -> list (ucmd A E) * bool).
Context (boom : nat -> list (sev A E) -> bool).
Context (ord : nat -> list nat -> list nat).
Context (P : policy A E).
Notation subject := (subject A E (po_store P)).
Implicit Types s : subject.
Implicit Types t : psubject P.
Notation pcalls := (pcalls prog boom ord).
Notation pcall := (pcall prog boom ord).

Lemma poisoned_call t u : ps_poison t <> None -> ps_poison (pcall t u) <> None.
Proof.
  intros H. unfold PubPanicModel.pcall. destruct (ps_poison t) as [p|]; [|tauto]. unfold caught.
  destruct (sj_halt _) as [[| | |[q|]]|]; cbn; discriminate.
Qed.

(** What a call leaves alone while the table is locked. *)
Definition leaves s s1 : Prop :=
  sj_next_id s <= sj_next_id s1 /\ sj_tbl s1 = sj_tbl s /\ sj_flag s1 = sj_flag s /\ (exists q, sj_queue s1 = sj_queue s ++ q) /\
  forall i, i < sj_next_id s -> history s1 i = history s i /\ sj_shut s1 i = sj_shut s i.
Lemma leaves_refl s : leaves s s.
Proof. repeat split; auto. exists []. now rewrite app_nil_r. Qed.
Lemma leaves_trans s s1 s2 : leaves s s1 -> leaves s1 s2 -> leaves s s2.
Proof.
  intros (A1 & A2 & A3 & (q & A4) & A5) (B1 & B2 & B3 & (r & B4) & B5).
  split; [lia|]. split; [congruence|]. split; [congruence|]. split; [exists (q ++ r); now rewrite B4, A4, app_assoc|].
  intros i Hi. destruct (A5 i Hi) as (X1 & X2). destruct (B5 i) as (Y1 & Y2); [lia|]. split; congruence.
Qed.
Lemma leaves_same s s1 : sj_next_id s1 = sj_next_id s -> sj_tbl s1 = sj_tbl s -> sj_flag s1 = sj_flag s ->
  sj_queue s1 = sj_queue s -> sj_log s1 = sj_log s -> sj_shut s1 = sj_shut s -> leaves s s1.
Proof.
  intros H1 H2 H3 H4 H5 H6. unfold leaves. rewrite H1, H2, H3, H4, H6. repeat split; auto.
  - exists []. now rewrite app_nil_r.
  - unfold history. now rewrite H5.
Qed.
Lemma leaves_fold {B} (f : subject -> B -> subject) : (forall s b, leaves s (f s b)) -> forall l s, leaves s (fold_left f l s).
Proof. intros H. induction l; cbn; intros; [apply leaves_refl|]. eapply leaves_trans; [apply H|apply IHl]. Qed.
Lemma leaves_defer s m : leaves s (mdefer s m).
Proof. unfold mdefer. destruct (_ && _); [apply leaves_refl|]. repeat split; auto. exists [m]. auto. Qed.

(** The events of a new subscriber. *)
Definition adds (i : nat) s s1 : Prop :=
  sj_next_id s1 = sj_next_id s /\ sj_tbl s1 = sj_tbl s /\ sj_flag s1 = sj_flag s /\ sj_queue s1 = sj_queue s /\
  forall j, j <> i -> history s1 j = history s j /\ sj_shut s1 j = sj_shut s j.
Lemma adds_refl i s : adds i s s.
Proof. repeat split; auto. Qed.
Lemma adds_trans i s s1 s2 : adds i s s1 -> adds i s1 s2 -> adds i s s2.
Proof.
  intros (A1 & A2 & A3 & A4 & A5) (B1 & B2 & B3 & B4 & B5). repeat split; try congruence;
  destruct (A5 j H); destruct (B5 j H); congruence.
Qed.
Lemma adds_event i s e c : adds i s (with_event s i e c).
Proof.
  repeat split; auto.
  - rewrite history_event. replace (i =? j) with false by (symmetry; apply Nat.eqb_neq; auto). apply app_nil_r.
  - cbn. destruct c; auto. unfold setf. apply Nat.eqb_neq in H. now rewrite H.
Qed.
Lemma adds_halt i s h : adds i s (with_halt s h).
Proof. repeat split; auto. Qed.
Lemma adds_greet at_ i r s : adds i s (pgreet prog boom at_ s i r).
Proof.
  unfold pgreet. revert s. induction r as [|a r IH]; intros s; cbn [fold_left]; [apply adds_refl|].
  eapply adds_trans; [|apply IH]. destruct (_ && _); [|apply adds_refl]. cbn zeta.
  destruct (fst (prog _ _)); [|apply adds_halt]. destruct (boom _ _); [|apply adds_event].
  eapply adds_trans; [apply (adds_event i s (SN a))|]. eapply adds_trans; [apply adds_event|apply adds_halt].
Qed.
Lemma adds_reject at_ i s : adds i s (preject prog boom at_ s i).
Proof.
  unfold preject. destruct (_ && _); [|apply adds_refl]. cbn zeta.
  set (e := match sj_err s with Some e => SE e | None => _ end).
  assert (H : adds i s (if boom i (history s i ++ [e]) then with_halt (with_event s i e true) (HThrow at_) else with_event s i e true)).
  { destruct (boom _ _); [eapply adds_trans; [apply adds_event|apply adds_halt]|apply adds_event]. }
  assert (H1 : adds i s (with_halt (with_event s i e true) HDeadlock)) by (eapply adds_trans; [apply adds_event|apply adds_halt]).
  destruct e; auto; destruct (fst (prog _ _)); auto.
Qed.
Lemma leaves_adds s s1 i n : adds i s s1 -> n <= i -> sj_next_id s = S i -> n = i ->
  forall s0, leaves s0 s -> sj_next_id s0 = n -> leaves s0 s1.
Proof.
  intros (A1 & A2 & A3 & A4 & A5) _ H2 -> s0 (B1 & B2 & B3 & (q & B4) & B5) H4.
  split; [lia|]. split; [congruence|]. split; [congruence|]. split; [exists q; congruence|].
  intros j Hj. destruct (A5 j) as (X1 & X2); [lia|]. destruct (B5 j Hj). split; congruence.
Qed.

Lemma leaves_inner at_ me s c : leaves s (pinner_call prog boom at_ me s c).
Proof.
  unfold pinner_call. destruct (running s); [|apply leaves_refl]. cbn zeta.
  assert (M : leaves s (with_made s c)) by now apply leaves_same.
  destruct c; cbn [sj_next_id with_made]; try (destruct (sj_closed _); [exact M|]).
  - eapply leaves_trans; [exact M|apply leaves_defer].
  - eapply leaves_trans; [|apply leaves_defer]. now apply leaves_same.
  - eapply leaves_trans; [|apply leaves_defer]. now apply leaves_same.
  - destruct (sj_uns _); [exact M|]. eapply leaves_trans; [|apply leaves_defer]. now apply leaves_same.
  - set (s1 := with_id _ _). set (s2 := pgreet _ _ _ _ _ _).
    assert (H2 : adds (sj_next_id s) s1 s2) by apply adds_greet.
    assert (H1 : leaves s s1) by (unfold leaves; cbn; repeat split; auto; exists []; now rewrite app_nil_r).
    assert (H3 : leaves s s2) by (eapply leaves_adds; eauto).
    destruct (running s2); auto. destruct (sj_closed s2).
    + eapply (@leaves_adds s1 _ (sj_next_id s)); eauto. eapply adds_trans; [exact H2|].
      eapply (@adds_trans _ _ (with_taken s2 (sj_next_id s))); [|apply adds_reject]. repeat split; auto.
    + eapply leaves_trans; [exact H3|apply leaves_defer].
  - destruct (_ || _); [exact M|]. eapply leaves_trans; [|apply leaves_defer]. now apply leaves_same.
Qed.
Lemma leaves_user at_ me s u : leaves s (pinner_user prog boom P at_ me s u).
Proof.
  unfold pinner_user. destruct (running s); [|apply leaves_refl]. cbn zeta.
  eapply leaves_trans; [|apply leaves_fold; intros; apply leaves_inner]. now apply leaves_same.
Qed.
Lemma leaves_stuck s s1 i : leaves s s1 -> stuck P s i = true -> stuck P s1 i = true.
Proof.
  intros (_ & H1 & _ & (q & H2) & _). unfold stuck. rewrite H1, H2, existsb_app.
  destruct (existsb (Nat.eqb i) (sj_tbl s)); auto. cbn. intros ->. auto.
Qed.

(** the state after a call: [s1], swept or not *)
Lemma caught_some p s : exists s1, (s1 = s \/ s1 = resumed P s) /\ ps_subject (caught P (Some p) s) = sweep P s1.
Proof. unfold caught. destruct (sj_halt s) as [[| | |[q|]]|]; cbn; eauto. Qed.

Lemma after_call t u i : ps_poison t <> None -> i < sj_next_id (ps_subject t) ->
  let s := ps_subject t in let s1 := ps_subject (pcall t u) in
  sj_tbl s1 = sj_tbl s /\ (exists q, sj_queue s1 = sj_queue s ++ q) /\ i < sj_next_id s1 /\
  ((history s1 i = history s i /\ sj_shut s1 i = sj_shut s i) \/
   (history s1 i = history s i ++ [SU] /\ sj_shut s i = false /\ sj_shut s1 i = true /\ stuck P s i = false)).
Proof.
  intros H Hi. cbn zeta. unfold PubPanicModel.pcall. destruct (ps_poison t) as [p|]; [|tauto]. clear H.
  set (me := match p with Some i => i | None => _ end). set (s := ps_subject t) in *.
  set (s2 := pinner_user _ _ _ _ _ _ _). assert (L : leaves s s2) by apply leaves_user.
  destruct (caught_some p s2) as (s1 & E1 & ->).
  assert (L1 : leaves s s1) by (destruct E1 as [->| ->]; auto).
  destruct (sweep_spec s1) as ((S1 & S2 & S3 & _) & S4 & S5).
  destruct L1 as (X1 & X2 & X3 & X4 & X5). destruct (X5 i Hi) as (X6 & X7).
  rewrite S1, S2, S3, S4, S5, X6, X7. split; [auto|]. split; [auto|]. split; [lia|].
  destruct (gone s1 i) eqn:G; [right|left; now rewrite app_nil_r, orb_false_r].
  unfold gone in G. apply andb_true_iff in G. destruct G as (_ & G). apply negb_true_iff in G.
  apply orb_false_iff in G. destruct G as (G & _). apply orb_false_iff in G. destruct G as (G1 & G2).
  rewrite X7 in G1. split; auto. split; auto. split; [apply orb_true_r|].
  destruct (stuck P s i) eqn:Y; auto. rewrite (leaves_stuck i (conj X1 (conj X2 (conj X3 (conj X4 X5)))) Y) in G2. discriminate.
Qed.

Lemma after us : forall t i, ps_poison t <> None -> i < sj_next_id (ps_subject t) ->
  let s := ps_subject t in let s1 := ps_subject (pcalls t us) in
  ps_poison (pcalls t us) <> None /\ i < sj_next_id s1 /\ sj_tbl s1 = sj_tbl s /\ (exists q, sj_queue s1 = sj_queue s ++ q) /\
  ((history s1 i = history s i /\ sj_shut s1 i = sj_shut s i) \/
   (history s1 i = history s i ++ [SU] /\ sj_shut s i = false /\ sj_shut s1 i = true /\ stuck P s i = false)).
Proof.
  cbn zeta. induction us as [|u us IH] using rev_ind; intros t i H Hi.
  - cbn. repeat split; auto. exists []. now rewrite app_nil_r.
  - destruct (IH t i H Hi) as (A1 & A2 & A3 & (q & A4) & A5). unfold PubPanicModel.pcalls in *. rewrite fold_left_app. cbn [fold_left].
    fold (pcalls t us) in *. set (t1 := pcalls t us) in *.
    destruct (after_call t1 u A1 A2) as (B1 & (r & B2) & B3 & B4). split; [now apply poisoned_call|]. split; auto.
    split; [congruence|]. split; [exists (q ++ r); now rewrite B2, A4, app_assoc|].
    destruct A5 as [(C1 & C2)|(C1 & C2 & C3 & C4)]; destruct B4 as [(D1 & D2)|(D1 & D2 & D3 & D4)]; try congruence.
    + left. split; congruence.
    + right. rewrite D1, C1. split; auto. split; [congruence|]. split; auto.
      unfold stuck in *. rewrite A3, A4, existsb_app in D4. destruct (existsb (Nat.eqb i) _); auto. cbn in *.
      apply orb_false_iff in D4. tauto.
    + right. split; [congruence|]. split; auto. split; auto. congruence.
Qed.

(** A call is passed on as a call of the same kind. *)
Definition honest : Prop := forall x c er,
  (forall a, po_calls P x c er (UNext a) = [] \/ po_calls P x c er (UNext a) = [KNext a]) /\
  (forall e, po_calls P x c er (UErr e) = [KErr e]) /\
  (exists l, po_calls P x c er UCmp = map KNext l ++ [KCmp]) /\
  po_calls P x c er UUns = [KUns] /\ (exists r, po_calls P x c er USub = [KSub r]) /\
  (forall i, po_calls P x c er (UOff i) = [KOff i]).

Definition uend (u : ucmd A E) : bool := match u with UErr _ | UCmp | UUns => true | _ => false end.
Definition kend (u : cmd A E) : bool := match u with KErr _ | KCmp | KUns => true | _ => false end.
Definition ksub (u : cmd A E) : bool := match u with KSub _ => true | _ => false end.

Lemma honest_end x c er u : honest -> existsb kend (po_calls P x c er u) = uend u.
Proof.
  intros H. destruct (H x c er) as (H1 & H2 & (l & H3) & H4 & (r & H5) & H6).
  destruct u; cbn [uend]; rewrite ?H2, ?H3, ?H4, ?H5, ?H6; auto.
  - destruct (H1 a) as [-> | ->]; auto.
  - rewrite existsb_app. cbn. now rewrite orb_true_r.
Qed.
Lemma honest_sub x c er u : honest -> u <> USub -> existsb ksub (po_calls P x c er u) = false.
Proof.
  intros H Hu. destruct (H x c er) as (H1 & H2 & (l & H3) & H4 & (r & H5) & H6).
  destruct u; try congruence; rewrite ?H2, ?H3, ?H4, ?H6; auto.
  - destruct (H1 a) as [-> | ->]; auto.
  - rewrite existsb_app. cbn. rewrite orb_false_r. clear. induction l; auto.
Qed.

Lemma closed_defer s m : sj_closed (mdefer s m) = sj_closed s.
Proof. unfold mdefer. destruct (_ && _); auto. Qed.
Lemma closed_greet at_ i r s : sj_closed (pgreet prog boom at_ s i r) = sj_closed s /\ sj_err (pgreet prog boom at_ s i r) = sj_err s.
Proof.
  unfold pgreet. revert s. induction r as [|a r IH]; intros s; cbn [fold_left]; auto.
  match goal with |- context [fold_left ?f r ?s0] => destruct (IH s0) as (H1 & H2) end.
  split; [etransitivity; [exact H1|]|etransitivity; [exact H2|]];
    (destruct (_ && _); auto; cbn zeta; destruct (fst (prog _ _)); [|auto]; destruct (boom _ _); auto).
Qed.
Lemma closed_reject at_ i s : sj_closed (preject prog boom at_ s i) = sj_closed s.
Proof.
  unfold preject. destruct (_ && _); auto. cbn zeta.
  set (e := match sj_err s with Some e => SE e | None => _ end).
  destruct e; destruct (boom _ _); auto; destruct (fst (prog _ _)); auto.
Qed.
Lemma closed_call at_ me s c : running s = true ->
  sj_closed (pinner_call prog boom at_ me s c) = sj_closed s || kend c /\
  (ksub c = false -> running (pinner_call prog boom at_ me s c) = true).
Proof.
  intros Hr. unfold pinner_call. rewrite Hr. cbn zeta.
  assert (D : forall s m, running (mdefer s m) = running s) by (intros s0 m; unfold mdefer; destruct (_ && _); auto).
  destruct c; cbn [kend ksub]; rewrite ?orb_true_r, ?orb_false_r; change (sj_closed (with_made s ?x)) with (sj_closed s).
  - destruct (sj_closed s) eqn:X; cbn; rewrite ?closed_defer, ?D; auto.
  - destruct (sj_closed s) eqn:X; cbn; rewrite ?closed_defer, ?D; auto. split; auto. unfold sj_closed. cbn. now rewrite !orb_true_r.
  - destruct (sj_closed s) eqn:X; cbn; rewrite ?closed_defer, ?D; auto. split; auto. unfold sj_closed. cbn. now rewrite !orb_true_r.
  - cbn. destruct (sj_uns s) eqn:X; cbn; rewrite ?closed_defer, ?D; split; auto; unfold sj_closed; cbn; rewrite ?X; cbn; now rewrite !orb_true_r.
  - split; [|discriminate]. set (s2 := pgreet _ _ _ _ _ _).
    assert (H2 : sj_closed s2 = sj_closed s) by (unfold s2; destruct (closed_greet at_ (sj_next_id (with_made s (KSub r))) r (with_id (with_made s (KSub r)) (S (sj_next_id (with_made s (KSub r)))))) as (-> & _); auto).
    destruct (running s2); auto. destruct (sj_closed s2) eqn:X; [etransitivity; [apply closed_reject|]; change (sj_closed s2 = sj_closed s); congruence|rewrite closed_defer; congruence].
  - destruct (_ || _); cbn; rewrite ?closed_defer, ?D; auto.
Qed.
Lemma closed_calls at_ me : forall cs s, running s = true -> existsb ksub cs = false ->
  let s1 := fold_left (pinner_call prog boom at_ me) cs s in
  running s1 = true /\ sj_closed s1 = sj_closed s || existsb kend cs.
Proof.
  cbn zeta. induction cs as [|c cs IH]; intros s Hr Hc; cbn in *; [now rewrite orb_false_r|].
  apply orb_false_iff in Hc. destruct Hc as (Hc & Hcs). destruct (closed_call at_ me s c Hr) as (H1 & H2).
  destruct (IH _ (H2 Hc) Hcs) as (H3 & H4). split; auto. rewrite H4, H1. now rewrite orb_assoc.
Qed.

Lemma sweep_halt s : sj_halt (sweep P s) = sj_halt s.
Proof. destruct (sweep_spec s) as (H & _). unfold alike in H. tauto. Qed.
Lemma sweep_closed s : sj_closed (sweep P s) = sj_closed s.
Proof.
  destruct (sweep_spec s) as ((_ & _ & _ & _ & H & H1 & H2 & H3 & _) & _). auto.
Qed.

Lemma after_closed t u : honest -> ps_poison t <> None -> running (ps_subject t) = true ->
  sj_closed (ps_subject (pcall t u)) = sj_closed (ps_subject t) || uend u /\
  (u <> USub -> running (ps_subject (pcall t u)) = true).
Proof.
  intros Hh Hp Hr. unfold PubPanicModel.pcall. destruct (ps_poison t) as [p|]; [|tauto].
  set (s := ps_subject t) in *. set (me := match p with Some i => i | None => _ end).
  assert (K : sj_closed (pinner_user prog boom P None me s u) = sj_closed s || uend u /\
    (u <> USub -> running (pinner_user prog boom P None me s u) = true)).
  { unfold pinner_user. rewrite Hr. cbn zeta. set (x := po_keep _ _ _). set (er := match sj_err s with Some _ => true | None => false end).
    destruct (match u with USub => true | _ => false end) eqn:U.
    - destruct u; try discriminate. split; [|congruence]. destruct (Hh x (sj_closed s) er) as (_ & _ & _ & _ & (r & ->) & _). cbn [fold_left uend].
      destruct (@closed_call None me (with_user s x USub) (KSub r)) as (-> & _); auto.
    - assert (Hu : u <> USub) by (intros ->; discriminate).
      destruct (@closed_calls None me (po_calls P x (sj_closed s) er u) (with_user s x u)) as (H1 & H2); auto.
      + now apply honest_sub.
      + rewrite H2, honest_end by auto. auto. }
  destruct K as (K1 & K2). split.
  - rewrite <- K1. unfold caught. destruct (sj_halt _) as [[| | |[q|]]|]; cbn [ps_subject]; rewrite sweep_closed; auto.
  - intros Hu. specialize (K2 Hu). apply running_halt in K2. unfold caught. rewrite K2. cbn [ps_subject].
    apply running_halt. rewrite sweep_halt. auto.
Qed.

(** Giving up the subscription of one that is not in the table. *)
Lemma after_off t i : honest -> ps_poison t <> None -> running (ps_subject t) = true -> i < sj_next_id (ps_subject t) ->
  sj_shut (ps_subject t) i = false -> stuck P (ps_subject t) i = false ->
  history (ps_subject (pcall t (UOff i))) i = history (ps_subject t) i ++ [SU].
Proof.
  intros Hh Hp Hr Hi Hs Hk. unfold PubPanicModel.pcall. destruct (ps_poison t) as [p|]; [|tauto].
  set (s := ps_subject t) in *. set (me := match p with Some i => i | None => _ end).
  set (s1 := pinner_user prog boom P None me s (UOff i)).
  assert (K : history s1 i = history s i /\ sj_halt s1 = None /\ gone s1 i = true).
  { unfold s1, pinner_user. rewrite Hr. cbn zeta. set (x := po_keep _ _ _). set (er := match sj_err s with Some _ => true | None => false end).
    destruct (Hh x (sj_closed s) er) as (_ & _ & _ & _ & _ & ->). cbn [fold_left].
    unfold pinner_call. change (running (with_user s x (UOff i))) with (running s). rewrite Hr. cbn zeta.
    cbn [sj_shut sj_taken sj_next_id with_user with_made]. rewrite Hs, andb_false_r. cbn [orb].
    assert (N : (i <? sj_next_id s) = true) by now apply Nat.ltb_lt. rewrite N. cbn [negb]. rewrite orb_false_r.
    apply running_halt in Hr. unfold stuck in Hk. apply orb_false_iff in Hk. destruct Hk as (Hk1 & Hk2).
    destruct (sj_taken s i) eqn:T.
    - split; auto. split; auto. unfold gone. cbn [sj_shut sj_taken sj_next_id with_user with_made]. rewrite N, Hs, T. unfold stuck. cbn. rewrite Hk1, Hk2. auto.
    - unfold mdefer. cbn [sj_flag with_taken with_made with_user]. destruct (_ && _).
      + split; auto. split; auto. unfold gone, stuck. cbn -[Nat.ltb]. unfold setf. rewrite N, Hs, Nat.eqb_refl, Hk1, Hk2. auto.
      + split; auto. split; auto. unfold gone, stuck. cbn -[Nat.ltb]. unfold setf. rewrite N, Hs, Nat.eqb_refl, Hk1, existsb_app, Hk2. auto. }
  destruct K as (K1 & K2 & K3). unfold caught. rewrite K2. cbn [ps_subject].
  destruct (sweep_spec s1) as (_ & -> & _). rewrite K1, K3. auto.
Qed.

(** A new subscriber. *)
Definition end_event s : sev A E :=
  match sj_err s, sj_cmp s with Some e, _ => SE e | None, true => SC | None, false => SU end.

Section New.
Context (i : nat).
Context (Hc : forall h, fst (prog i h) = []) (Hb : forall h, boom i h = false).
Notation quits := (fun h => snd (prog i h)).

Lemma tame_greet at_ : forall r s, running s = true -> sj_shut s i = false ->
  let s1 := pgreet prog boom at_ s i r in
  running s1 = true /\ end_event s1 = end_event s /\ sj_taken s1 = sj_taken s /\
  (if sj_shut s1 i
   then forall l, history s1 i = history s i ++ upto quits (history s i) (map SN r ++ l)
   else history s1 i = history s i ++ map SN r /\
        forall l, upto quits (history s i) (map SN r ++ l) = map SN r ++ upto quits (history s i ++ map SN r) l).
Proof.
  cbn zeta. unfold pgreet. induction r as [|a r IH]; intros s Hr Hs; cbn [fold_left].
  - rewrite Hs. repeat split; auto. now rewrite app_nil_r. cbn. intros. now rewrite app_nil_r.
  - rewrite Hr, Hs. cbn zeta. cbn [andb negb]. rewrite Hc, Hb. set (s0 := with_event s i (SN a) _).
    assert (H0 : history s0 i = history s i ++ [SN a]) by (unfold s0; rewrite history_event, Nat.eqb_refl; auto).
    destruct (snd (prog i (history s i ++ [SN a]))) eqn:Q.
    + assert (S0 : sj_shut s0 i = true) by (cbn; unfold setf; now rewrite Nat.eqb_refl).
      assert (F : forall r, fold_left (fun s a => if running s && negb (sj_shut s i) then
          let p := prog i (history s i ++ [SN a]) in
          match fst p with
          | [] => if boom i (history s i ++ [SN a])
                  then with_halt (with_event (with_event s i (SN a) (snd p)) i SU true) (HThrow at_)
                  else with_event s i (SN a) (snd p)
          | _ => with_halt s HNested
          end else s) r s0 = s0).
      { clear - S0. induction r as [|b r IH]; cbn [fold_left]; auto. rewrite S0, andb_false_r. auto. }
      rewrite F, S0. repeat split; auto. intros l. rewrite H0. cbn. rewrite Q. auto.
    + destruct (IH s0) as (I1 & I2 & I3 & I4); auto.
      split; auto. split; auto. split; auto. cbn zeta in I4. rewrite H0 in I4.
      cbn zeta; set (s1 := fold_left _ r s0) in *; destruct (sj_shut s1 i).
      * intros l. rewrite (I4 l). cbn [map app upto]. rewrite Q, <- app_assoc. auto.
      * destruct I4 as (I4 & I5). split; [rewrite I4, <- app_assoc; auto|].
        intros l. cbn [map app upto]. rewrite Q, I5, <- app_assoc. auto.
Qed.

Lemma after_new t r : honest -> ps_poison t <> None -> running (ps_subject t) = true -> i = sj_next_id (ps_subject t) ->
  history (ps_subject t) i = [] -> sj_shut (ps_subject t) i = false -> 
  po_calls P (po_keep P (sj_store (ps_subject t)) USub) (sj_closed (ps_subject t))
    (match sj_err (ps_subject t) with Some _ => true | None => false end) USub = [KSub r] ->
  forall us, history (ps_subject (pcalls t (USub :: us))) i =
    upto quits [] (map SN r ++ (if sj_closed (ps_subject t) then [end_event (ps_subject t)] else [])).
Proof.
  intros Hh Hp Hr Hi H0 Hs Hk us.
  assert (K : i < sj_next_id (ps_subject (pcall t USub)) /\
    (sj_shut (ps_subject (pcall t USub)) i = true \/ stuck P (ps_subject (pcall t USub)) i = true) /\
    history (ps_subject (pcall t USub)) i = upto quits [] (map SN r ++ (if sj_closed (ps_subject t) then [end_event (ps_subject t)] else []))).
  2: { destruct K as (K1 & K2 & K3). rewrite <- K3. change (pcalls t (USub :: us)) with (pcalls (pcall t USub) us).
       destruct (@after us (pcall t USub) i) as (_ & _ & _ & _ & [(X1 & X2)|(X1 & X2 & X3 & X4)]); auto.
       - now apply poisoned_call.
       - destruct K2; congruence. }
  unfold PubPanicModel.pcall. destruct (ps_poison t) as [p|]; [|tauto].
  set (s := ps_subject t) in *. set (me := match p with Some i => i | None => _ end).
  set (s1 := pinner_user prog boom P None me s USub).
  assert (K : i < sj_next_id s1 /\ sj_halt s1 = None /\ (sj_shut s1 i = true \/ stuck P s1 i = true) /\
    history s1 i = upto quits [] (map SN r ++ (if sj_closed s then [end_event s] else []))).
  2: { destruct K as (K1 & K2 & K3 & K4). unfold caught. rewrite K2. cbn [ps_subject].
       destruct (sweep_spec s1) as (Sa & Sh & Ss). pose proof (alike_stuck i Sa) as St.
       destruct Sa as (Sn & _). rewrite Sn, Sh, Ss, St.
       split; auto. split.
       - destruct K3 as [-> | ->]; auto.
       - replace (gone s1 i) with false; [now rewrite app_nil_r|]. unfold gone. destruct K3 as [-> | ->]; cbn; rewrite ?orb_true_r; cbn; now rewrite andb_false_r. }
  unfold s1, pinner_user. rewrite Hr. cbn zeta. rewrite Hk. cbn [fold_left]. unfold pinner_call.
  change (running (with_user s (po_keep P (sj_store s) USub) USub)) with (running s). rewrite Hr. cbn zeta.
  cbn [sj_next_id with_made with_user]. rewrite <- Hi.
  set (s2 := with_id _ _). set (s3 := pgreet _ _ _ _ _ _).
  destruct (@tame_greet None r s2) as (T1 & T2 & T3 & T4); auto. cbn zeta in *. fold s3 in T1, T2, T3, T4.
  destruct (closed_greet None i r s2) as (T5 & _). fold s3 in T5.
  destruct (@adds_greet None i r s2) as (N1 & _ & N3 & _). fold s3 in N1, N3. cbn in N1.
  change (history s2 i) with (history s i) in T4. rewrite H0 in T4.
  change (sj_closed s2) with (sj_closed s) in T5. change (end_event s2) with (end_event s) in T2.
  rewrite T1, T5. destruct (sj_closed s) eqn:C.
  - unfold preject. change (running (with_taken s3 i)) with (running s3). rewrite T1.
    change (sj_shut (with_taken s3 i)) with (sj_shut s3). destruct (sj_shut s3 i) eqn:S3; cbn [andb negb].
    + split; [cbn; lia|]. split; [now apply running_halt in T1|]. split; auto. change (history (with_taken s3 i) i) with (history s3 i). apply T4.
    + destruct T4 as (T4 & T6). cbn zeta. rewrite Hb, Hc.
      change (match sj_err (with_taken s3 i) with Some e => SE e | None => if sj_cmp (with_taken s3 i) then SC else SU end) with (end_event s3). rewrite T2.
      assert (G : forall e, i < sj_next_id (with_event (with_taken s3 i) i e true) /\
        sj_halt (with_event (with_taken s3 i) i e true) = None /\
        (sj_shut (with_event (with_taken s3 i) i e true) i = true \/ stuck P (with_event (with_taken s3 i) i e true) i = true) /\
        history (with_event (with_taken s3 i) i e true) i = map SN r ++ [e]).
      { intros e. split; [cbn; lia|]. split; [now apply running_halt in T1|]. split; [left; cbn; unfold setf; now rewrite Nat.eqb_refl|].
        rewrite history_event, Nat.eqb_refl. change (history (with_taken s3 i) i) with (history s3 i). rewrite T4. auto. }
      rewrite T6. cbn [app].
      assert (F : upto quits (map SN r) [end_event s] = [end_event s]) by (unfold end_event; destruct (sj_err s); [|destruct (sj_cmp s)]; reflexivity).
      rewrite F. destruct (end_event s); rewrite ?Hc; apply G.
  - unfold mdefer. replace (sj_flag s3) with false.
    2: { rewrite N3. cbn. unfold sj_closed in C. destruct (sj_flag s); auto. }
    cbn [andb]. split; [cbn; lia|]. split; [now apply running_halt in T1|]. split.
    + right. unfold stuck. cbn. rewrite existsb_app. cbn. rewrite Nat.eqb_refl. now rewrite !orb_true_r.
    + change (history (with_queue s3 (sj_queue s3 ++ [MAdd i])) i) with (history s3 i). destruct (sj_shut s3 i); [apply T4|].
      destruct T4 as (T4 & T6). rewrite T6, T4. cbn. now rewrite app_nil_r.
Qed.
End New.
End After.

(** *** Numbers that were not given out yet. *)
Section Fresh.
Context {A E : Type}.
Context (prog : nat -> list (sev A E) -> list (ucmd A E) * bool).
Context (boom : nat -> list (sev A E) -> bool).
Context (ord : nat -> list nat -> list nat).
Context (Hord : forall n l i, In i (ord n l) -> In i l).
Context (P : policy A E).
Notation subject := (subject A E (po_store P)).
Implicit Types s : subject.
Implicit Types t : psubject P.

Definition fresh s : Prop :=
  (forall i, sj_next_id s <= i -> sj_shut s i = false /\ history s i = []) /\
  (forall i, In i (sj_tbl s) -> i < sj_next_id s) /\
  (forall i, In (MAdd i) (sj_queue s) -> i < sj_next_id s).
Definition ok s s1 : Prop := sj_next_id s <= sj_next_id s1 /\ (fresh s -> fresh s1).

Lemma ok_refl s : ok s s.
Proof. split; auto. Qed.
Lemma ok_trans s s1 s2 : ok s s1 -> ok s1 s2 -> ok s s2.
Proof. intros (H1 & H2) (H3 & H4). split; [lia|auto]. Qed.
Lemma ok_same s s1 : sj_next_id s1 = sj_next_id s -> sj_shut s1 = sj_shut s -> sj_log s1 = sj_log s ->
  incl (sj_tbl s1) (sj_tbl s) -> incl (sj_queue s1) (sj_queue s) -> ok s s1.
Proof.
  intros H1 H2 H3 H4 H5. split; [lia|]. intros (F1 & F2 & F3). unfold fresh. rewrite H1, H2. split; [|split; auto].
  intros i Hi. unfold history. rewrite H3. apply F1. auto.
Qed.
Ltac same := apply ok_same; cbn; auto using incl_refl.
Lemma ok_event s i e c : i < sj_next_id s -> ok s (with_event s i e c).
Proof.
  intros Hi. split; [auto|]. intros (F1 & F2 & F3). split; [|split; auto]. intros j Hj. cbn in Hj. destruct (F1 j Hj) as (X1 & X2).
  split.
  - cbn. destruct c; auto. unfold setf. destruct (Nat.eqb_spec j i); [lia|auto].
  - rewrite history_event, X2. destruct (Nat.eqb_spec i j); [lia|auto].
Qed.
Lemma ok_halt s h : ok s (with_halt s h).
Proof. same. Qed.
Lemma ok_defer s m : (forall i, m = MAdd i -> i < sj_next_id s) -> ok s (mdefer s m).
Proof.
  intros H. unfold mdefer. destruct (_ && _); [apply ok_refl|]. split; auto. intros (F1 & F2 & F3). split; [auto|split; auto].
  intros i Hi. cbn in *. apply in_app_iff in Hi. destruct Hi as [Hi|[Hi|[]]]; auto.
Qed.
Lemma ok_fold {B} (f : subject -> B -> subject) : (forall s b, ok s (f s b)) -> forall l s, ok s (fold_left f l s).
Proof. intros H. induction l; cbn; intros; [apply ok_refl|]. eapply ok_trans; [apply H|apply IHl]. Qed.
Lemma ok_greet at_ i r s : i < sj_next_id s -> ok s (pgreet prog boom at_ s i r).
Proof.
  unfold pgreet. revert s. induction r as [|a r IH]; intros s Hi; cbn [fold_left]; [apply ok_refl|].
  match goal with |- ok s (fold_left ?f r ?x) => assert (H : ok s x); [|eapply ok_trans; [exact H|apply IH; destruct H; lia]] end.
  destruct (_ && _); [|apply ok_refl]. cbn zeta.
  destruct (fst (prog _ _)); [|apply ok_halt]. destruct (boom _ _); [|now apply ok_event].
  eapply ok_trans; [apply (@ok_event s i (SN a) (snd (prog i (history s i ++ [SN a]))) Hi)|]. eapply ok_trans; [apply ok_event; exact Hi|apply ok_halt].
Qed.
Lemma ok_reject at_ i s : i < sj_next_id s -> ok s (preject prog boom at_ s i).
Proof.
  intros Hi. unfold preject. destruct (_ && _); [|apply ok_refl]. cbn zeta.
  set (e := match sj_err s with Some e => SE e | None => _ end).
  assert (H : ok s (if boom i (history s i ++ [e]) then with_halt (with_event s i e true) (HThrow at_) else with_event s i e true)).
  { destruct (boom _ _); [eapply ok_trans; [apply (@ok_event s i e true Hi)|apply ok_halt]|now apply ok_event]. }
  assert (H1 : ok s (with_halt (with_event s i e true) HDeadlock)) by (eapply ok_trans; [apply (@ok_event s i e true Hi)|apply ok_halt]).
  destruct e; auto; destruct (fst (prog _ _)); auto.
Qed.
Lemma ok_id s n : sj_next_id s <= n -> ok s (with_id s n).
Proof.
  intros H. split; auto. intros (F1 & F2 & F3). unfold fresh. cbn. split; [|split].
  - intros i Hi. apply F1. lia.
  - intros i Hi. specialize (F2 i Hi). lia.
  - intros i Hi. specialize (F3 i Hi). lia.
Qed.
Lemma ok_inner at_ me s c : ok s (pinner_call prog boom at_ me s c).
Proof.
  unfold pinner_call. destruct (running s); [|apply ok_refl]. cbn zeta.
  assert (M : ok s (with_made s c)) by same.
  destruct c; cbn [sj_next_id with_made]; try (destruct (sj_closed _); [exact M|]).
  - eapply ok_trans; [exact M|apply ok_defer; discriminate].
  - eapply ok_trans; [|apply ok_defer; discriminate]. same.
  - eapply ok_trans; [|apply ok_defer; discriminate]. same.
  - destruct (sj_uns _); [exact M|]. eapply ok_trans; [|apply ok_defer; discriminate]. same.
  - set (s1 := with_id _ _). set (s2 := pgreet _ _ _ _ _ _).
    assert (H1 : ok s s1) by (eapply ok_trans; [exact M|]; apply ok_id; cbn; lia).
    assert (H2 : ok s1 s2) by (apply ok_greet; cbn; lia).
    assert (H3 : ok s s2) by (eapply ok_trans; eauto). assert (N : sj_next_id s < sj_next_id s2) by (destruct H2; cbn in *; lia).
    destruct (running s2); auto. destruct (sj_closed s2).
    + eapply (ok_trans (s1 := with_taken s2 (sj_next_id s))); [eapply ok_trans; [exact H3|same]|now apply ok_reject].
    + eapply ok_trans; [exact H3|apply ok_defer]. intros i Hi. injection Hi as <-. auto.
  - destruct (_ || _); [exact M|]. eapply ok_trans; [|apply ok_defer; discriminate]. same.
Qed.
Lemma ok_inner_user at_ me s u : ok s (pinner_user prog boom P at_ me s u).
Proof.
  unfold pinner_user. destruct (running s); [|apply ok_refl]. cbn zeta.
  eapply ok_trans; [|apply ok_fold; intros; apply ok_inner]. same.
Qed.
Lemma ok_tell s i e : i < sj_next_id s -> ok s (ptell prog boom P s i e).
Proof.
  intros Hi. unfold ptell. destruct (_ && _); [|apply ok_refl]. cbn zeta.
  set (s1 := fold_left _ _ _). assert (H : ok s s1).
  { unfold s1. eapply ok_trans; [apply (@ok_event s i e (ends e || snd (prog i (history s i ++ [e]))) Hi)|]. apply ok_fold. intros. apply ok_inner_user. }
  destruct (_ && _); exact H.
Qed.
Lemma ok_tells e : forall l s, (forall i, In i l -> i < sj_next_id s) -> ok s (fold_left (fun s i => ptell prog boom P s i e) l s).
Proof.
  induction l as [|i l IH]; intros s H; cbn [fold_left]; [apply ok_refl|].
  assert (H1 : ok s (ptell prog boom P s i e)) by (apply ok_tell, H; left; auto).
  eapply ok_trans; [exact H1|apply IH]. intros j Hj. destruct H1 as (H1 & _). specialize (H j (or_intror Hj)). lia.
Qed.
Lemma ok_broadcast s e : fresh s -> ok s (pbroadcast prog boom ord P s e).
Proof.
  intros F. unfold pbroadcast. eapply ok_trans; [|apply ok_tells]; [same|].
  intros i Hi. apply Hord in Hi. cbn. destruct F as (_ & F & _). auto.
Qed.
Lemma remove_incl i : forall l, incl (remove_id i l) l.
Proof. induction l as [|j l IH]; cbn; [apply incl_refl|]. destruct (j =? i); [now apply incl_tl|]. intros x [<-|Hx]; [now left|right; auto]. Qed.
Lemma ok_mapply s m : fresh s -> (forall i, m = MAdd i -> i < sj_next_id s) -> ok s (pmapply prog boom ord P s m).
Proof.
  intros F Hm. destruct m; cbn [pmapply]; try now apply ok_broadcast.
  - eapply ok_trans; [apply (@ok_broadcast s SU F)|]. apply ok_same; cbn; auto using incl_refl. intros x [].
  - destruct (existsb _ _) eqn:X; [|apply ok_refl]. apply existsb_exists in X. destruct X as (k & K1 & K2).
    apply Nat.eqb_eq in K2. subst k. eapply (ok_trans (s1 := with_tbl s (remove_id i (sj_tbl s)))).
    + apply ok_same; cbn; auto using incl_refl. apply remove_incl.
    + apply ok_tell. cbn. destruct F as (_ & F & _). auto.
  - split; auto. intros (F1 & F2 & F3). split; [auto|split; auto]. intros j Hj. cbn in *. apply in_app_iff in Hj.
    destruct Hj as [Hj|[<-|[]]]; auto.
Qed.
Lemma ok_one s m : fresh s -> (forall i, m = MAdd i -> i < sj_next_id s) -> ok s (pmapply_one prog boom ord P s m).
Proof.
  intros F Hm. unfold pmapply_one. destruct (running s); [|apply ok_refl].
  assert (H : forall m, (forall i, m = MAdd i -> i < sj_next_id s) -> ok s (
        let s0 := if sj_flag s then s else pmapply prog boom ord P s m in
        if running s0 then
          let s1 := if is_terminal m then pmapply prog boom ord P s0 MUns else s0 in
          if running s1 then if is_unsub m || is_terminal m then with_flag s1 else s1 else s1
        else s0)).
  { clear m Hm. intros m Hm. cbn zeta. set (s0 := if sj_flag s then s else _).
    assert (H0 : ok s s0) by (unfold s0; destruct (sj_flag s); [apply ok_refl|now apply ok_mapply]).
    destruct (running s0); auto. set (s1 := if is_terminal m then _ else _).
    assert (H1 : ok s s1).
    { unfold s1. destruct (is_terminal m); auto. eapply ok_trans; [exact H0|]. apply ok_mapply; [destruct H0; auto|discriminate]. }
    destruct (running s1); auto. destruct (_ || _); exact H1. }
  destruct m; try (apply H; discriminate). destruct (sj_shut s i); [apply ok_refl|].
  destruct (sj_flag s); [apply ok_tell; auto|now apply ok_mapply].
Qed.
Lemma ok_ones : forall l s, fresh s -> (forall i, In (MAdd i) l -> i < sj_next_id s) -> ok s (fold_left (pmapply_one prog boom ord P) l s).
Proof.
  induction l as [|m l IH]; intros s F H; cbn [fold_left]; [apply ok_refl|].
  assert (H1 : ok s (pmapply_one prog boom ord P s m)) by (apply ok_one; auto; intros i ->; apply H; left; auto).
  eapply ok_trans; [exact H1|apply IH]; destruct H1 as (H1 & H2); auto. intros j Hj. specialize (H j (or_intror Hj)). lia.
Qed.
Lemma ok_queue : forall n s, fresh s -> ok s (pmapply_queue prog boom ord P n s).
Proof.
  induction n as [|n IH]; intros s F; cbn [pmapply_queue]; destruct (running s); try apply ok_refl; try apply ok_halt.
  destruct (sj_queue s) as [|m ms] eqn:Q; [apply ok_refl|]. rewrite <- Q. cbn zeta.
  assert (H0 : ok s (with_queue s [])) by (apply ok_same; cbn; auto using incl_refl; intros x []).
  set (s1 := fold_left _ _ _). assert (H1 : ok s s1).
  { eapply ok_trans; [exact H0|]. apply ok_ones; [destruct H0; auto|]. cbn. destruct F as (_ & _ & F). auto. }
  destruct (running s1); auto.
  assert (H2 : ok s (clean P s1)).
  { eapply ok_trans; [exact H1|]. apply ok_same; cbn; auto using incl_refl. intros x Hx. now apply filter_In in Hx. }
  eapply ok_trans; [exact H2|apply IH]. destruct H2; auto.
Qed.
Lemma ok_try s : fresh s -> ok s (pmtry_apply prog boom ord P s).
Proof. intros F. unfold pmtry_apply. destruct (sj_queue s); [apply ok_refl|now apply ok_queue]. Qed.

Lemma fresh_outer s c : fresh s -> fresh (pouter_call prog boom ord P s c).
Proof.
  intros F. unfold pouter_call. destruct (running s); auto. cbn zeta.
  assert (M : fresh (with_made s c)) by (apply (@ok_same s); cbn; auto using incl_refl).
  assert (Q : forall s2 m, fresh s2 -> (forall i, m = MAdd i -> i < sj_next_id s2) -> fresh (
     let s3 := pmapply_queue prog boom ord P mdepth s2 in if running s3 then pmapply prog boom ord P s3 m else s3)).
  { intros s2 m F2 Hm. cbn zeta. destruct (ok_queue mdepth F2) as (N & F3). destruct (running _); auto.
    apply ok_mapply; auto. intros i Hi. specialize (Hm i Hi). lia. }
  assert (T : forall s, fresh s -> fresh (pmtry_apply prog boom ord P s)) by (intros s0 F0; now apply ok_try).
  destruct c; cbn zeta in *.
  - apply T. destruct (sj_closed _); auto. apply Q; auto. discriminate.
  - apply T. destruct (sj_closed _); auto. apply Q; auto. discriminate.
  - apply T. destruct (sj_closed _); auto. apply Q; auto. discriminate.
  - apply T. destruct (sj_uns _); auto. set (s2 := with_obs _ _ _ _). assert (F2 : fresh s2) by exact M.
    destruct (ok_queue mdepth F2) as (N & F3). destruct (running _); auto.
    match goal with |- fresh (pmapply _ _ _ _ ?x _) => assert (F4 : fresh x) by (specialize (F3 F2); exact F3) end. apply ok_mapply; auto. discriminate.
  - set (i := sj_next_id _). set (s1 := with_id _ _). set (s2 := pgreet _ _ _ _ _ _).
    assert (F1 : fresh s1) by (apply (@ok_id (with_made s (KSub r))); auto).
    destruct (@ok_greet None i r s1) as (N2 & F2); [cbn; lia|]. fold s2 in N2, F2. specialize (F2 F1).
    assert (Ni : i < sj_next_id s2) by (cbn in N2; unfold i; cbn; lia).
    assert (W : forall x : subject, fresh x -> fresh (if running x then x else with_taken x i)) by (intros x Fx; destruct (running x); auto).
    apply W. destruct (running s2); auto. destruct (ok_try F2) as (N3 & F3). specialize (F3 F2).
    set (s3 := pmtry_apply _ _ _ _ _) in *. destruct (running s3); auto. destruct (sj_closed s3).
    + apply ok_reject; [change (i < sj_next_id s3); eapply Nat.lt_le_trans; eassumption|exact F3].
    + destruct (ok_queue mdepth F3) as (N4 & F4). specialize (F4 F3). destruct (running _); auto. apply T.
      apply ok_mapply; auto. intros j Hj. injection Hj as <-. eapply Nat.lt_le_trans; [eapply Nat.lt_le_trans; eassumption|eassumption].
  - destruct (_ || _); auto. apply Q; auto. discriminate.
Qed.
Lemma fresh_user s u : fresh s -> fresh (pouter_user prog boom ord P s u).
Proof.
  intros F. unfold pouter_user. destruct (running s); auto. cbn zeta.
  match goal with |- fresh (fold_left _ ?l ?x) => generalize l; assert (F1 : fresh x) by exact F; revert F1; generalize x end.
  intros s1 F1 l. revert s1 F1. induction l; cbn; auto. intros. apply IHl. now apply fresh_outer.
Qed.
Lemma fresh_sweep s : fresh s -> fresh (sweep P s).
Proof.
  intros (F1 & F2 & F3). destruct (sweep_spec s) as ((S1 & S2 & S3 & _) & S4 & S5). unfold fresh. rewrite S1, S2, S3.
  split; [|split; auto]. intros i Hi. rewrite S4, S5. unfold gone. destruct (Nat.ltb_spec i (sj_next_id s)); [lia|]. cbn.
  rewrite app_nil_r, orb_false_r. apply F1. auto.
Qed.
Lemma fresh_call t u : fresh (ps_subject t) -> fresh (ps_subject (pcall prog boom ord t u)).
Proof.
  intros F. unfold pcall.
  assert (C : forall p s, fresh s -> fresh (ps_subject (caught P p s))).
  { intros p s Fs. unfold caught. destruct (sj_halt s) as [[| | |[q|]]|]; cbn [ps_subject];
      try (apply fresh_sweep; exact Fs); destruct p; auto; now apply fresh_sweep. }
  destruct (ps_poison t); apply C; [now apply ok_inner_user|now apply fresh_user].
Qed.
Lemma fresh_calls us : fresh (ps_subject (pcalls prog boom ord (pnew P) us)).
Proof.
  unfold pcalls. induction us as [|u us IH] using rev_ind; [cbn; split; [intros; split; auto|split; intros i []]|].
  rewrite fold_left_app. cbn [fold_left]. now apply fresh_call.
Qed.
End Fresh.

(** *** A subscriber that panics over a value. *)
Section Value.
Context {A E : Type}.
Context (prog : nat -> list (sev A E) -> list (ucmd A E) * bool).
Context (boom : nat -> list (sev A E) -> bool).
Context (ord : nat -> list nat -> list nat).
Context (P : policy A E).
Context (Hc : forall j h, fst (prog j h) = []).
Notation subject := (subject A E (po_store P)).
Implicit Types s : subject.
Implicit Types t : psubject P.

Lemma told_all e : forall l s, running s = true -> NoDup l ->
  (forall j, In j l -> sj_shut s j = false -> boom j (history s j ++ [e]) = false) ->
  let s1 := fold_left (fun s i => ptell prog boom P s i e) l s in
  running s1 = true /\ sj_next_id s1 = sj_next_id s /\ sj_tbl s1 = sj_tbl s /\ sj_queue s1 = sj_queue s /\
  (forall j, history s1 j = history s j ++ (if existsb (Nat.eqb j) l && negb (sj_shut s j) then [e] else [])) /\
  (forall j, ~ In j l -> sj_shut s1 j = sj_shut s j).
Proof.
  cbn zeta. induction l as [|i l IH]; intros s Hr Hn Hb; cbn [fold_left].
  - repeat split; auto. intros j. cbn. now rewrite app_nil_r.
  - inversion Hn as [|? ? Hi Hl]; subst. set (s0 := ptell prog boom P s i e).
    assert (K : running s0 = true /\ sj_next_id s0 = sj_next_id s /\ sj_tbl s0 = sj_tbl s /\ sj_queue s0 = sj_queue s /\
      (forall j, history s0 j = history s j ++ (if (j =? i) && negb (sj_shut s j) then [e] else [])) /\
      (forall j, j <> i -> sj_shut s0 j = sj_shut s j)).
    { unfold s0, ptell. rewrite Hr. destruct (sj_shut s i) eqn:X; cbn [andb negb].
      - repeat split; auto. intros j. destruct (Nat.eqb_spec j i); [subst; rewrite X|]; cbn; now rewrite app_nil_r.
      - cbn zeta. rewrite Hc. cbn [fold_left]. rewrite (Hb i (or_introl eq_refl) X), andb_false_r.
        repeat split; auto.
        + intros j. rewrite history_event. rewrite Nat.eqb_sym. destruct (Nat.eqb_spec j i); [subst; rewrite X|]; auto.
        + intros j Hj. cbn. destruct (_ || _); auto. unfold setf. destruct (Nat.eqb_spec j i); [contradiction|auto]. }
    destruct K as (K1 & K2 & K3 & K4 & K5 & K6).
    assert (Hne : forall j, In j l -> j <> i) by (intros j Hj ->; contradiction).
    destruct (IH s0 K1 Hl) as (I1 & I2 & I3 & I4 & I5 & I6).
    { intros j Hj Hs. rewrite K6 in Hs by auto. rewrite K5. replace (j =? i) with false by (symmetry; apply Nat.eqb_neq; auto).
      cbn. rewrite app_nil_r. apply Hb; auto. right. auto. }
    split; auto. split; [congruence|]. split; [congruence|]. split; [congruence|]. split.
    + intros j. rewrite I5, K5. cbn [existsb]. destruct (Nat.eqb_spec j i) as [->|Hj]; cbn [orb andb].
      * replace (existsb (Nat.eqb i) l) with false; [cbn; now rewrite app_nil_r|]. symmetry.
        destruct (existsb (Nat.eqb i) l) eqn:Y; auto. apply existsb_exists in Y. destruct Y as (k & Y1 & Y2). apply Nat.eqb_eq in Y2. subst. tauto.
      * rewrite app_nil_r, K6; auto.
    + intros j Hj. rewrite I6, K6; auto; intros X; apply Hj; [left; auto|right; auto].
Qed.

Lemma silent e : forall l s, running s = false -> fold_left (fun s i => ptell prog boom P s i e) l s = s.
Proof. induction l as [|i l IH]; intros s Hr; cbn [fold_left]; auto. unfold ptell at 2. rewrite Hr. cbn. auto. Qed.

Lemma panic_value t a i l1 l2 us : ps_poison t = None -> let s := ps_subject t in
  running s = true -> sj_closed s = false -> sj_queue s = [] ->
  (forall x c er, po_calls P x c er (UNext a) = [KNext a]) ->
  ord (sj_iter s) (sj_tbl s) = l1 ++ i :: l2 -> NoDup (l1 ++ i :: l2) ->
  (forall j, In j (l1 ++ i :: l2) -> In j (sj_tbl s) /\ j < sj_next_id s) ->
  (forall j, In j l1 -> sj_shut s j = false -> boom j (history s j ++ [SN a]) = false) ->
  sj_shut s i = false -> boom i (history s i ++ [SN a]) = true ->
  forall j, In j (l1 ++ i :: l2) ->
  history (ps_subject (pcalls prog boom ord t (UNext a :: us))) j =
    history s j ++ (if existsb (Nat.eqb j) (l1 ++ [i]) && negb (sj_shut s j) then [SN a] else []).
Proof.
  cbn zeta. intros Hp Hr Hcl Hq Hk Ho Hn Ht Hb Hs Hbi j Hj. set (s := ps_subject t) in *.
  assert (K : ps_poison (pcall prog boom ord t (UNext a)) <> None /\ j < sj_next_id (ps_subject (pcall prog boom ord t (UNext a))) /\
    stuck P (ps_subject (pcall prog boom ord t (UNext a))) j = true /\
    history (ps_subject (pcall prog boom ord t (UNext a))) j = history s j ++ (if existsb (Nat.eqb j) (l1 ++ [i]) && negb (sj_shut s j) then [SN a] else [])).
  2: { destruct K as (K1 & K2 & K3 & <-).
       change (pcalls prog boom ord t (UNext a :: us)) with (pcalls prog boom ord (pcall prog boom ord t (UNext a)) us).
       destruct (@after A E prog boom ord P us _ _ K1 K2) as (_ & _ & _ & _ & [(X1 & X2)|(X1 & X2 & X3 & X4)]); auto. congruence. }
  unfold pcall. rewrite Hp. fold s. unfold pouter_user. rewrite Hr, Hk. cbn zeta. cbn [fold_left].
  set (x := po_keep _ _ _). unfold pouter_call. change (running (with_user s x (UNext a))) with (running s). rewrite Hr.
  cbn zeta. change (sj_closed (with_made (with_user s x (UNext a)) (KNext a))) with (sj_closed s). rewrite Hcl.
  set (s1 := with_made _ _).
  assert (Q : pmapply_queue prog boom ord P mdepth s1 = s1).
  { unfold mdepth, pmapply_queue. change (running s1) with (running s). rewrite Hr. change (sj_queue s1) with (sj_queue s). rewrite Hq. auto. }
  rewrite Q. change (running s1) with (running s). rewrite Hr. cbn [pmapply]. unfold pbroadcast.
  change (sj_iter s1) with (sj_iter s). change (sj_tbl s1) with (sj_tbl s). rewrite Ho, fold_left_app. cbn [fold_left].
  set (s2 := with_iter s1).
  assert (Hn1 : NoDup l1 /\ ~ In i l1).
  { apply NoDup_remove in Hn. destruct Hn as (H1 & H2). split; [|intros X; apply H2, in_app_iff; auto].
    clear - H1. induction l1 as [|k l IH]; [constructor|]. inversion H1; subst. constructor; [|auto]. intros X. apply H2, in_app_iff; auto. }
  destruct Hn1 as (Hn1 & Hn2).
  destruct (@told_all (SN a) l1 s2) as (T1 & T2 & T3 & T4 & T5 & T6); auto.
  cbn zeta in *. set (s3 := fold_left _ l1 s2) in *.
  assert (H3 : ptell prog boom P s3 i (SN a) = with_halt (with_event s3 i (SN a) (ends (SN a : sev A E) || snd (prog i (history s3 i ++ [SN a])))) (HThrow (Some i))).
  { unfold ptell. rewrite T1, T6 by auto. change (sj_shut s2 i) with (sj_shut s i). rewrite Hs. cbn [andb negb]. cbn zeta. rewrite Hc. cbn [fold_left].
    change (running (with_event s3 i (SN a) ?b)) with (running s3). rewrite T1, T5. cbn [andb].
    replace (existsb (Nat.eqb i) l1) with false; [cbn [andb]; rewrite app_nil_r; change (history s2 i) with (history s i); rewrite Hbi; auto|].
    symmetry. destruct (existsb (Nat.eqb i) l1) eqn:Y; auto. apply existsb_exists in Y. destruct Y as (k & Y1 & Y2). apply Nat.eqb_eq in Y2. subst. tauto. }
  rewrite H3. rewrite silent by reflexivity. set (b := ends (SN a : sev A E) || snd (prog i (history s3 i ++ [SN a]))). set (s4 := with_halt _ _).
  assert (Y : pmtry_apply prog boom ord P s4 = s4).
  { unfold pmtry_apply. change (sj_queue s4) with (sj_queue s3). rewrite T4. change (sj_queue s2) with (sj_queue s). rewrite Hq. auto. }
  rewrite Y. unfold caught. cbn [sj_halt s4 with_halt ps_subject ps_poison].
  destruct (sweep_spec (resumed P s4)) as ((S1 & S2 & S3 & _) & S4 & S5).
  destruct (Ht j Hj) as (Ht1 & Ht2).
  assert (St : stuck P (resumed P s4) j = true).
  { unfold stuck. change (sj_tbl (resumed P s4)) with (sj_tbl s3). rewrite T3. change (sj_tbl s2) with (sj_tbl s).
    apply orb_true_iff. left. apply existsb_exists. exists j. split; auto. apply Nat.eqb_refl. }
  split; [discriminate|]. split; [rewrite S1; change (sj_next_id (resumed P s4)) with (sj_next_id s3); rewrite T2; exact Ht2|].
  split; [unfold stuck in *; rewrite S2, S3; exact St|]. rewrite S4.
  replace (gone (resumed P s4) j) with false by (unfold gone; rewrite St, orb_true_r; cbn; now rewrite andb_false_r).
  rewrite app_nil_r. change (history (resumed P s4) j) with (history (with_event s3 i (SN a) b) j). rewrite history_event, T5.
  change (history s2 j) with (history s j). change (sj_shut s2 j) with (sj_shut s j). rewrite existsb_app. cbn [existsb].
  rewrite orb_false_r. rewrite (Nat.eqb_sym j i). destruct (Nat.eqb_spec i j) as [<-|Hij].
  - rewrite Hs, orb_true_r. cbn [andb negb]. destruct (existsb (Nat.eqb i) l1) eqn:Z; [|cbn; now rewrite app_nil_r].
    apply existsb_exists in Z. destruct Z as (k & Y1 & Y2). apply Nat.eqb_eq in Y2. subst. tauto.
  - rewrite orb_false_r. now rewrite app_nil_r.
Qed.
End Value.

Section Kept.
Context {A E : Type}.
Context (prog : nat -> list (sev A E) -> list (ucmd A E) * bool).
Context (boom : nat -> list (sev A E) -> bool).
Context (ord : nat -> list nat -> list nat).
Context (P : policy A E).
Implicit Types t : psubject P.

Lemma stuck_in s i : stuck P s i = true <-> In i (sj_tbl s) \/ In (MAdd i) (sj_queue s).
Proof.
  unfold stuck. rewrite orb_true_iff, !existsb_exists. split.
  - intros [(k & K1 & K2)|(m & K1 & K2)].
    + apply Nat.eqb_eq in K2. subst. auto.
    + destruct m; try discriminate. apply Nat.eqb_eq in K2. subst. auto.
  - intros [H|H]; [left; exists i|right; exists (MAdd i)]; split; auto; apply Nat.eqb_refl.
Qed.

Lemma kept_values (Hk : forall x c er a, po_calls P x c er (UNext a) = [KNext a]) : forall l t,
  ps_poison t <> None -> running (ps_subject t) = true -> sj_closed (ps_subject t) = false ->
  sj_queue (ps_subject (pcalls prog boom ord t (map UNext l))) = sj_queue (ps_subject t) ++ map MNext l.
Proof.
  unfold pcalls. induction l as [|a l IH]; intros t Hp Hr Hc; cbn [map fold_left]; [now rewrite app_nil_r|].
  assert (K : ps_poison (pcall prog boom ord t (UNext a)) <> None /\ running (ps_subject (pcall prog boom ord t (UNext a))) = true /\
    sj_closed (ps_subject (pcall prog boom ord t (UNext a))) = false /\
    sj_queue (ps_subject (pcall prog boom ord t (UNext a))) = sj_queue (ps_subject t) ++ [MNext a]).
  { split; [now apply poisoned_call|]. unfold pcall. destruct (ps_poison t) as [p|]; [|tauto]. set (s := ps_subject t) in *.
    unfold pinner_user. rewrite Hr, Hk. cbn zeta. cbn [fold_left]. unfold pinner_call.
    change (running (with_user s (po_keep P (sj_store s) (UNext a)) (UNext a))) with (running s). rewrite Hr. cbn zeta.
    set (s1 := with_made _ _). change (sj_closed s1) with (sj_closed s). rewrite Hc. unfold mdefer. change (sj_flag s1) with (sj_flag s).
    assert (F : sj_flag s = false) by (unfold sj_closed in Hc; destruct (sj_flag s); auto). rewrite F. cbn [andb].
    set (s2 := with_queue _ _). assert (H2 : sj_halt s2 = None) by now apply running_halt in Hr.
    unfold caught. rewrite H2. cbn [ps_subject]. split; [apply running_halt; rewrite sweep_halt; auto|].
    rewrite sweep_closed. split; [exact Hc|]. destruct (sweep_spec s2) as ((_ & _ & -> & _) & _). auto. }
  destruct K as (K1 & K2 & K3 & K4). rewrite IH, K4, <- app_assoc by auto. auto.
Qed.
End Kept.

Section Wrap.
Context {A E : Type}.
Context (prog : nat -> list (sev A E) -> list (ucmd A E) * bool).
Context (boom : nat -> list (sev A E) -> bool).
Context (ord : nat -> list nat -> list nat).

Lemma honest_all (v : A) n f :
  honest (@plain A E) /\ honest (@behavior A E v) /\ honest (@replay A E n) /\ honest (@async A E f).
Proof.
  split; [|split; [|split]]; intros x c er; cbn; repeat split; auto; eauto.
  - exists []. auto.
  - exists []. auto.
  - exists []. auto.
Qed.

Lemma after_all (P : policy A E) (t : psubject P) us i :
  ps_poison t <> None -> i < sj_next_id (ps_subject t) ->
  let s := ps_subject t in let s1 := ps_subject (pcalls prog boom ord t us) in
  ps_poison (pcalls prog boom ord t us) <> None /\
  (history s1 i = history s i \/ history s1 i = history s i ++ [SU] /\ sj_shut s i = false) /\
  (In i (sj_tbl s) \/ In (MAdd i) (sj_queue s) -> history s1 i = history s i).
Proof.
  cbn zeta. intros H Hi. destruct (@after A E prog boom ord P us t i H Hi) as (H1 & _ & _ & _ & [(X1 & X2)|(X1 & X2 & X3 & X4)]).
  - split; auto.
  - split; auto. split; auto. intros Y. apply stuck_in in Y. congruence.
Qed.

Lemma late_new : (forall n l j, In j (ord n l) -> In j l) ->
  forall (P : policy A E) us us1 r,
  let t := pcalls prog boom ord (pnew P) us in let s := ps_subject t in let i := sj_next_id s in
  (forall h, fst (prog i h) = []) -> (forall h, boom i h = false) ->
  honest P -> ps_poison t <> None -> running s = true ->
  po_calls P (po_keep P (sj_store s) USub) (sj_closed s) (match sj_err s with Some _ => true | None => false end) USub = [KSub r] ->
  history (ps_subject (pcalls prog boom ord t (USub :: us1))) i =
    upto (fun h => snd (prog i h)) [] (map SN r ++
      (if sj_closed s
       then [match sj_err s, sj_cmp s with Some e, _ => SE e | None, true => SC | None, false => SU end]
       else [])).
Proof.
  intros Ho P us us1 r t s i Hc Hb Hh Hp Hr Hk.
  destruct (@fresh_calls A E prog boom ord Ho P us) as (F & _). destruct (F i) as (F1 & F2); [apply le_n|].
  exact (@after_new A E prog boom ord P i Hc Hb t r Hh Hp Hr eq_refl F2 F1 Hk us1).
Qed.

Lemma greeting (P : policy A E) (t : psubject P) : honest P -> ps_poison t = None -> let s := ps_subject t in
  running s = true -> sj_queue s = [] ->
  let t1 := pcall prog boom ord t USub in
  ps_poison t1 = None /\ forall j, In j (sj_tbl s) -> j < sj_next_id s ->
  In j (sj_tbl (ps_subject t1)) /\ history (ps_subject t1) j = history s j /\ sj_shut (ps_subject t1) j = sj_shut s j.
Proof.
  cbn zeta. intros Hh Hp Hr Hq. unfold pcall. rewrite Hp. set (s := ps_subject t) in *.
  set (s1 := pouter_user prog boom ord P s USub).
  assert (K : match sj_halt s1 with Some (HThrow (Some _)) | Some HPanic => False | _ => True end /\
    incl (sj_tbl s) (sj_tbl s1) /\
    forall j, j < sj_next_id s -> history s1 j = history s j /\ sj_shut s1 j = sj_shut s j).
  2: { destruct K as (K1 & K2 & K3).
       assert (Y : forall s2, s2 = s1 \/ s2 = sweep P (resumed P s1) -> forall j, In j (sj_tbl s) -> j < sj_next_id s ->
         In j (sj_tbl s2) /\ history s2 j = history s j /\ sj_shut s2 j = sj_shut s j).
       { intros s2 [->| ->] j Hj Hn; destruct (K3 j Hn) as (X1 & X2); [auto|].
         destruct (sweep_spec (resumed P s1)) as ((_ & S2 & _) & S4 & S5). rewrite S2, S4, S5.
         replace (gone (resumed P s1) j) with false.
         - rewrite app_nil_r, orb_false_r. auto.
         - unfold gone. replace (stuck P (resumed P s1) j) with true; [rewrite orb_true_r; cbn; now rewrite andb_false_r|].
           symmetry. apply stuck_in. left. apply K2. auto. }
       unfold caught. destruct (sj_halt s1) as [[| | |[q|]]|]; try tauto; cbn [ps_poison ps_subject]; split; auto. }
  unfold s1, pouter_user. rewrite Hr. cbn zeta. set (x := po_keep _ _ _). set (er := match sj_err s with Some _ => true | None => false end).
  destruct (Hh x (sj_closed s) er) as (_ & _ & _ & _ & (r & ->) & _). cbn [fold_left]. unfold pouter_call.
  change (running (with_user s x USub)) with (running s). rewrite Hr. cbn zeta. set (i := sj_next_id _). set (s2 := with_id _ _).
  assert (Hi : i = sj_next_id s) by reflexivity.
  set (s3 := pgreet prog boom None s2 i r).
  assert (G : match sj_halt s3 with Some (HThrow (Some _)) | Some HPanic => False | _ => True end).
  { unfold s3. assert (H2 : match sj_halt s2 with Some (HThrow (Some _)) | Some HPanic => False | _ => True end).
    { change (sj_halt s2) with (sj_halt s). apply running_halt in Hr. rewrite Hr. auto. }
    revert H2. unfold pgreet. generalize s2. clear. induction r as [|a r IH]; intros s0 H; cbn [fold_left]; auto.
    apply IH. destruct (_ && _); auto. cbn zeta. destruct (fst (prog _ _)); [|cbn; auto]. destruct (boom _ _); cbn; auto. }
  destruct (@adds_greet A E prog boom P None i r s2) as (G1 & G2 & G3 & G4 & G5). fold s3 in G1, G2, G3, G4, G5.
  assert (T : pmtry_apply prog boom ord P s3 = s3) by (unfold pmtry_apply; rewrite G4; change (sj_queue s2) with (sj_queue s); now rewrite Hq).
  assert (O : forall j, j < sj_next_id s -> history s3 j = history s j /\ sj_shut s3 j = sj_shut s j) by (intros j Hj; apply G5; lia).
  rewrite T. destruct (running s3) eqn:R3.
  2: { rewrite R3. split; [exact G|]. split; [change (sj_tbl (with_taken s3 i)) with (sj_tbl s3); rewrite G2; apply incl_refl|exact O]. }
  destruct (sj_closed s3).
  - set (s4 := preject _ _ _ _ _). destruct (@adds_reject A E prog boom P None i (with_taken s3 i)) as (_ & J2 & _ & _ & J5). fold s4 in J2, J5.
    assert (J : match sj_halt s4 with Some (HThrow (Some _)) | Some HPanic => False | _ => True end).
    { unfold s4, preject. destruct (_ && _); [|exact G]. cbn zeta. set (e := match sj_err _ with Some e => SE e | None => _ end).
      destruct e; destruct (boom _ _); try destruct (fst (prog _ _)); cbn; auto; exact G. }
    assert (W : forall b : bool, match sj_halt (if b then s4 else with_taken s4 i) with Some (HThrow (Some _)) | Some HPanic => False | _ => True end /\
      incl (sj_tbl s) (sj_tbl (if b then s4 else with_taken s4 i)) /\ forall j, j < sj_next_id s ->
      history (if b then s4 else with_taken s4 i) j = history s j /\ sj_shut (if b then s4 else with_taken s4 i) j = sj_shut s j).
    { assert (Q : incl (sj_tbl s) (sj_tbl s4)) by (rewrite J2; change (sj_tbl (with_taken s3 i)) with (sj_tbl s3); rewrite G2; apply incl_refl).
      assert (V : forall j, j < sj_next_id s -> history s4 j = history s j /\ sj_shut s4 j = sj_shut s j).
      { intros j Hj. destruct (O j Hj) as (O1 & O2). destruct (J5 j) as (X1 & X2); [lia|]. split; [rewrite X1; exact O1|rewrite X2; exact O2]. }
      intros []; split; auto. }
    apply (W (running s4)).
  - assert (Q : pmapply_queue prog boom ord P mdepth s3 = s3).
    { unfold mdepth, pmapply_queue. rewrite R3, G4. change (sj_queue s2) with (sj_queue s). rewrite Hq. auto. }
    rewrite Q, R3. set (s4 := pmapply _ _ _ _ _ _).
    assert (T4 : pmtry_apply prog boom ord P s4 = s4) by (unfold pmtry_apply; change (sj_queue s4) with (sj_queue s3); rewrite G4; change (sj_queue s2) with (sj_queue s); now rewrite Hq).
    rewrite T4. change (running s4) with (running s3). rewrite R3. split; [exact G|]. split; [|exact O].
    change (sj_tbl s4) with (sj_tbl s3 ++ [i]). rewrite G2. change (sj_tbl s2) with (sj_tbl s). apply incl_appl, incl_refl.
Qed.
End Wrap.
