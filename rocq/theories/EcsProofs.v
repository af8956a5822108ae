(** Proofs about EcsModel.v. *)
From Coq Require Import Permutation.
From Verif Require Import Base EcsModel EcsSpec.
Set Implicit Arguments.

Definition place_of (l : list ev) (s : nat) : place :=
  if gone s l then Despawned else if attached s l then Held else if spawned s l then Reserved else Nowhere.
Definition fate_of (l : list ev) (s : nat) : fate :=
  if over s l then Over else if subscribed s l then Open else if spawned s l then Waiting else Unborn.

Lemma always_nil good : always good [].
Proof. intros p e s H. destruct p; discriminate. Qed.
Lemma always_snoc good l e : always good l -> good l e -> always good (l ++ [e]).
Proof.
  intros H He p x s Hp. destruct s as [|y s] using rev_ind.
  - apply app_inj_tail in Hp. destruct Hp as [<- <-]. auto.
  - rewrite app_comm_cons, app_assoc in Hp. apply app_inj_tail in Hp. destruct Hp as [Hp _]. eapply H; eauto.
Qed.

(** What ties the state to the trace; [pend] are the commands that wait, in the list or about to
    be applied; [hole] is the subscription that is in the middle of something. *)
Record inv (hole : option nat) (pend : list (nat * nat * nat)) (w : world) : Prop := mkInv {
  v_good : always orderly (w_tr w);
  v_place : forall s, w_place w s = place_of (w_tr w) s;
  v_fate : forall s, w_fate w s = fate_of (w_tr w) s;
  v_next : forall s, spawned s (w_tr w) = (s <? w_next w);
  v_spawned : forall s, subscribed s (w_tr w) = true \/ over s (w_tr w) = true \/ gone s (w_tr w) = true \/ attached s (w_tr w) = true -> spawned s (w_tr w) = true;
  v_att : forall s, attached s (w_tr w) = true -> subscribed s (w_tr w) = true;
  v_open : forall s, w_fate w s = Open -> hole = Some s \/ w_place w s = Held;
    v_work : forall s, w_place w s = Held -> w_fate w s = Over -> In s (w_work w);
  v_over : forall s, In s (w_work w) -> w_fate w s = Over;
  v_nodup : NoDup (map (fun x => fst (fst x)) pend);
  v_pend : forall s, w_fate w s = Waiting <-> In s (map (fun x => fst (fst x)) pend)
}.

Ltac trc := unfold spawned, subscribed, attached, lost, over, gone in *; rewrite ?existsb_app in *; cbn [existsb] in *; rewrite ?orb_false_r in *.

Lemma upd_same {X} (f : nat -> X) i x : upd f i x i = x.
Proof. unfold upd. rewrite Nat.eqb_refl. auto. Qed.
Lemma upd_other {X} (f : nat -> X) i x j : j <> i -> upd f i x j = f j.
Proof. unfold upd. intros H. apply Nat.eqb_neq in H. rewrite H. auto. Qed.

Lemma place_snoc l e s : place_of (l ++ [e]) s =
  match e with
  | TGone i => if i =? s then Despawned else place_of l s
  | TPut i => if i =? s then (if gone s l then Despawned else Held) else place_of l s
  | TSpawn i _ => if i =? s then (if gone s l then Despawned else if attached s l then Held else Reserved) else place_of l s
  | _ => place_of l s
  end.
Proof. unfold place_of. trc. destruct e; cbn; rewrite ?orb_false_r; auto; destruct (_ =? s); rewrite ?orb_true_r, ?orb_false_r; auto. Qed.
Lemma fate_snoc l e s : fate_of (l ++ [e]) s =
  match e with
  | TOver i => if i =? s then Over else fate_of l s
  | TSub i => if i =? s then (if over s l then Over else Open) else fate_of l s
  | TSpawn i _ => if i =? s then (if over s l then Over else if subscribed s l then Open else Waiting) else fate_of l s
  | _ => fate_of l s
  end.
Proof. unfold fate_of. trc. destruct e; cbn; rewrite ?orb_false_r; auto; destruct (_ =? s); rewrite ?orb_true_r, ?orb_false_r; auto. Qed.

Lemma inv_do hole pend w a : inv hole pend w -> inv hole pend (log (TDo a) w).
Proof.
  intros [I1 I2 I3 I4 I5 I6 I7 I8 I8' I9 I10].
  split; cbn [log w_tr w_place w_fate w_next w_work]; auto.
  - apply always_snoc; cbn; auto.
  - intros s. rewrite place_snoc. auto.
  - intros s. rewrite fate_snoc. auto.
  - intros s. trc. auto.
  - intros s. trc. auto.
  - intros s. trc. auto.
Qed.


Lemma fate_cases l s :
  match fate_of l s with
  | Unborn => over s l = false /\ subscribed s l = false /\ spawned s l = false
  | Waiting => over s l = false /\ subscribed s l = false /\ spawned s l = true
  | Open => over s l = false /\ subscribed s l = true
  | Over => over s l = true
  end.
Proof. unfold fate_of. destruct (over s l), (subscribed s l), (spawned s l); auto. Qed.
Lemma place_cases l s :
  match place_of l s with
  | Nowhere => gone s l = false /\ attached s l = false /\ spawned s l = false
  | Reserved => gone s l = false /\ attached s l = false /\ spawned s l = true
  | Held => gone s l = false /\ attached s l = true
  | Despawned => gone s l = true
  end.
Proof. unfold place_of. destruct (gone s l), (attached s l), (spawned s l); auto. Qed.

(** The parts about one subscription that is left alone. *)
Ltac other i s := destruct (Nat.eq_dec i s) as [->|?N]; [|assert (s =? i = false) by (apply Nat.eqb_neq; congruence)].
Ltac start := intros [I1 I2 I3 I4 I5 I6 I7 I8 I8' I9 I10]; intros.

Lemma inv_close hole s pend w : inv hole pend w -> hole = None \/ hole = Some s -> inv None pend (close s w).
Proof.
  intros I. pose proof I as [I1 I2 I3 I4 I5 I6 I7 I8 I8' I9 I10]. intros Hh. unfold close. destruct (w_fate w s) eqn:Hf.
  4: split; auto; intros i Hi; destruct (I7 i Hi) as [->|]; auto; destruct Hh as [E|E]; inversion E; subst; congruence.
  1,2: split; auto; intros i Hi; destruct (I7 i Hi) as [->|]; auto; destruct Hh as [E|E]; inversion E; subst; congruence.
  pose proof (fate_cases (w_tr w) s) as Hs. rewrite <- I3, Hf in Hs. destruct Hs as [Hs1 Hs2].
  pose proof (I5 s (or_introl Hs2)) as Hy.
  split; cbn [log with_work with_fate w_tr w_place w_fate w_next w_work]; auto.
  - apply always_snoc; cbn; auto.
  - intros i. rewrite place_snoc. auto.
  - intros i. rewrite fate_snoc. unfold upd. rewrite (Nat.eqb_sym s i). destruct (i =? s); auto.
  - intros i. trc. auto.
  - intros i. assert (Hx := I5 i). other i s; trc; auto. rewrite H, ?orb_false_r. auto.
  - intros i. trc. auto.
  - intros i. other i s; [rewrite upd_same; discriminate|rewrite upd_other by auto]. intros Hi. destruct (I7 i Hi) as [->|]; auto. destruct Hh as [E|E]; inversion E. congruence.
  - intros i Hp. other i s; [intros; apply in_app_iff; cbn; auto|rewrite upd_other by auto]. intros. apply in_app_iff. auto.
  - intros i Hi. other i s; [rewrite upd_same; auto|rewrite upd_other by auto]. apply in_app_iff in Hi. destruct Hi as [Hi|[Hi|[]]]; [auto|congruence].
  - intros i. other i s; [rewrite upd_same|rewrite upd_other by auto; auto]. rewrite <- I10. split; congruence.
Qed.

Lemma inv_gone s pend w : inv None pend w -> w_place w s = Reserved \/ w_place w s = Held ->
  inv (Some s) pend (log (TGone s) (with_place s Despawned w)).
Proof.
  start. pose proof (place_cases (w_tr w) s) as Hs. rewrite <- I2 in Hs.
  assert (Hg : gone s (w_tr w) = false /\ spawned s (w_tr w) = true).
  { destruct H as [E|E]; rewrite E in Hs; [tauto|]. split; [tauto|]. apply I5. tauto. }
  destruct Hg as [Hg1 Hg2].
  split; cbn [log with_place w_tr w_place w_fate w_next w_work]; auto.
  - apply always_snoc; cbn; auto.
  - intros i. rewrite place_snoc. unfold upd. rewrite (Nat.eqb_sym s i). destruct (i =? s); auto.
  - intros i. rewrite fate_snoc. auto.
  - intros i. trc. auto.
  - intros i. assert (Hx := I5 i). other i s; trc; auto. rewrite H0, ?orb_false_r. auto.
  - intros i. trc. auto.
  - intros i Hi. other i s; auto. rewrite upd_other by auto. destruct (I7 i Hi); [discriminate|auto].
  - intros i. other i s; [rewrite upd_same; discriminate|rewrite upd_other by auto; auto].
Qed.
Lemma inv_fill s pend w : inv (Some s) pend w -> w_fate w s <> Open \/ w_place w s = Held -> inv None pend w.
Proof. start. split; auto. intros i Hi. destruct (I7 i Hi) as [E|]; auto. inversion E; subst. destruct H; [congruence|auto]. Qed.
Lemma inv_dig s pend w : inv None pend w -> inv (Some s) pend w.
Proof. start. split; auto. intros i Hi. destruct (I7 i Hi) as [E|]; auto. discriminate. Qed.

Lemma inv_despawn s pend w : inv None pend w -> inv None pend (despawn s w).
Proof.
  intros I. unfold despawn. destruct (w_place w s) eqn:Hp; auto.
  - apply inv_fill with s; [apply inv_gone; auto|]. cbn. left. intros Ho. destruct (v_open I s Ho); congruence.
  - apply inv_close with (Some s); auto. apply inv_gone; auto.
Qed.

Lemma inv_sub s e n pend w : inv None ((s, e, n) :: pend) w -> inv (Some s) pend (log (TSub s) (with_fate s Open w)).
Proof.
  start. assert (Hf : w_fate w s = Waiting) by (apply I10; cbn; auto).
  pose proof (fate_cases (w_tr w) s) as Hs. rewrite <- I3, Hf in Hs. destruct Hs as (Hs1 & Hs2 & Hs3).
  cbn in I9. inversion I9; subst.
  split; cbn [log with_fate w_tr w_place w_fate w_next w_work]; auto.
  - apply always_snoc; cbn; auto.
  - intros i. rewrite place_snoc. auto.
  - intros i. rewrite fate_snoc. unfold upd. rewrite (Nat.eqb_sym s i). destruct (i =? s) eqn:E; auto. apply Nat.eqb_eq in E; subst i. rewrite Hs1. auto.
  - intros i. trc. auto.
  - intros i. assert (Hx := I5 i). other i s; trc; auto. rewrite H, ?orb_false_r. auto.
  - intros i. assert (Hx := I6 i). other i s; trc; intros; [rewrite Nat.eqb_refl; apply orb_true_r|rewrite H, ?orb_false_r; auto].
  - intros i. other i s; auto. rewrite upd_other by auto. intros Hi. destruct (I7 i Hi); [discriminate|auto].
  - intros i Hp. other i s; [rewrite upd_same; discriminate|rewrite upd_other by auto; auto].
  - intros i Hi. other i s; [apply I8' in Hi; congruence|rewrite upd_other by auto; auto].
  - intros i. other i s; [rewrite upd_same|rewrite upd_other by auto].
    + split; [discriminate|]. intros Hi. tauto.
    + rewrite I10. cbn. intuition congruence.
Qed.

Lemma inv_ended s pend w : inv (Some s) pend w -> w_fate w s = Open -> w_place w s <> Held ->
  inv None pend (log (TOver s) (with_fate s Over w)).
Proof.
  start. pose proof (fate_cases (w_tr w) s) as Hs. rewrite <- I3, H in Hs. destruct Hs as [Hs1 Hs2].
  pose proof (I5 s (or_introl Hs2)) as Hy.
  split; cbn [log with_work with_fate w_tr w_place w_fate w_next w_work]; auto.
  - apply always_snoc; cbn; auto.
  - intros i. rewrite place_snoc. auto.
  - intros i. rewrite fate_snoc. unfold upd. rewrite (Nat.eqb_sym s i). destruct (i =? s); auto.
  - intros i. trc. auto.
  - intros i. assert (Hx := I5 i). other i s; trc; auto. rewrite H1, ?orb_false_r. auto.
  - intros i. trc. auto.
  - intros i. other i s; [rewrite upd_same; discriminate|rewrite upd_other by auto]. intros Hi. destruct (I7 i Hi) as [E|]; auto. congruence.
  - intros i Hp. other i s; [congruence|rewrite upd_other by auto]. auto.
  - intros i Hi. other i s; [rewrite upd_same; auto|rewrite upd_other by auto; auto].
  - intros i. other i s; [rewrite upd_same|rewrite upd_other by auto; auto]. rewrite <- I10. split; congruence.
Qed.

Lemma inv_drop s e n pend w : inv None ((s, e, n) :: pend) w -> inv None pend (drop_event s w).
Proof.
  start. unfold drop_event. assert (Hf : w_fate w s = Waiting) by (apply I10; cbn; auto).
  pose proof (fate_cases (w_tr w) s) as Hs. rewrite <- I3, Hf in Hs. destruct Hs as (Hs1 & Hs2 & Hs3).
  cbn in I9. inversion I9; subst.
  split; cbn [log with_fate w_tr w_place w_fate w_next w_work]; auto.
  - apply always_snoc; cbn; auto.
  - intros i. rewrite place_snoc. auto.
  - intros i. rewrite fate_snoc. unfold upd. rewrite (Nat.eqb_sym s i). destruct (i =? s) eqn:E; auto.
  - intros i. trc. auto.
  - intros i. assert (Hx := I5 i). other i s; trc; auto. rewrite H, ?orb_false_r. auto.
  - intros i. trc. auto.
  - intros i. other i s; [rewrite upd_same; discriminate|rewrite upd_other by auto]. intros Hi. destruct (I7 i Hi); [discriminate|auto].
  - intros i Hp. other i s; [|rewrite upd_other by auto; auto]. intros _.
    pose proof (place_cases (w_tr w) s) as Hs. rewrite <- I2, Hp in Hs. destruct Hs as [_ Ha]. apply I6 in Ha. congruence.
  - intros i Hi. other i s; [rewrite upd_same; auto|rewrite upd_other by auto; auto].
  - intros i. other i s; [rewrite upd_same|rewrite upd_other by auto].
    + split; [discriminate|]. intros Hi. tauto.
    + rewrite I10. cbn. intuition congruence.
Qed.

Lemma inv_put s pend w : inv (Some s) pend w -> w_fate w s = Open -> w_place w s = Reserved ->
  inv None pend (log (TPut s) (with_place s Held w)).
Proof.
  start. pose proof (fate_cases (w_tr w) s) as Hs. rewrite <- I3, H in Hs. destruct Hs as [Hs1 Hs2].
  pose proof (place_cases (w_tr w) s) as Hp. rewrite <- I2, H0 in Hp. destruct Hp as (Hp1 & Hp2 & Hp3).
  split; cbn [log with_place w_tr w_place w_fate w_next w_work]; auto.
  - apply always_snoc; cbn; auto.
  - intros i. rewrite place_snoc. unfold upd. rewrite (Nat.eqb_sym s i). destruct (i =? s) eqn:E; auto. apply Nat.eqb_eq in E; subst i. rewrite Hp1. auto.
  - intros i. rewrite fate_snoc. auto.
  - intros i. trc. auto.
  - intros i. assert (Hx := I5 i). other i s; trc; auto. rewrite H1, ?orb_false_r. auto.
  - intros i. assert (Hx := I6 i). other i s; trc; intros; auto. rewrite H1, ?orb_false_r in H2. auto.
  - intros i Hi. other i s; [rewrite upd_same; auto|rewrite upd_other by auto]. destruct (I7 i Hi) as [E|]; [congruence|auto].
  - intros i. other i s; [congruence|rewrite upd_other by auto; auto].
Qed.

Lemma inv_lost s pend w : inv (Some s) pend w -> w_fate w s = Open -> w_place w s = Despawned -> attached s (w_tr w) = false ->
  inv (Some s) pend (log (TLost s) w).
Proof.
  start. pose proof (fate_cases (w_tr w) s) as Hs. rewrite <- I3, H in Hs. destruct Hs as [Hs1 Hs2].
  pose proof (place_cases (w_tr w) s) as Hp. rewrite <- I2, H0 in Hp.
  split; cbn [log w_tr w_place w_fate w_next w_work]; auto.
  - apply always_snoc; cbn; auto.
  - intros i. rewrite place_snoc. auto.
  - intros i. rewrite fate_snoc. auto.
  - intros i. trc. auto.
  - intros i. trc. auto.
  - intros i. trc. auto.
Qed.

(** A command that waits: its entity is reserved or gone. *)
Lemma waiting hole pend w s : inv hole pend w -> w_fate w s = Waiting -> attached s (w_tr w) = false /\ (w_place w s = Reserved \/ w_place w s = Despawned).
Proof.
  start. pose proof (fate_cases (w_tr w) s) as Hs. rewrite <- I3, H in Hs. destruct Hs as (Hs1 & Hs2 & Hs3).
  assert (Ha : attached s (w_tr w) = false). { destruct (attached s (w_tr w)) eqn:E; auto. apply I6 in E. congruence. }
  split; auto. rewrite I2. unfold place_of. rewrite Ha, Hs3. destruct (gone s (w_tr w)); auto.
Qed.

Lemma inv_consume s c e n pend w : inv None ((s, e, n) :: pend) w -> inv None pend (consume s c w).
Proof.
  intros I. pose proof (inv_sub I) as I1. unfold consume. set (w1 := log (TSub s) (with_fate s Open w)) in *.
  assert (Hf : w_fate w1 s = Open) by apply upd_same.
  assert (Hw : w_fate w s = Waiting) by (apply (v_pend I); cbn; auto).
  destruct (waiting s I Hw) as [Ha Hp].
  assert (Hp1 : w_place w1 s = w_place w s) by reflexivity.
  assert (Ha1 : attached s (w_tr w1) = false) by (unfold w1; cbn [w_tr log with_fate]; trc; auto).
  destruct c.
  - apply inv_despawn. apply inv_ended; auto. rewrite Hp1. destruct Hp as [->| ->]; discriminate.
  - destruct Hp as [E|E]; rewrite Hp1, E.
    + apply inv_put; auto.
    + apply inv_close with (Some s); auto. apply inv_lost; auto.
Qed.

Lemma inv_with_retry hole pend w l : inv hole pend w -> inv hole pend (with_retry l w).
Proof. start. split; auto. Qed.
Lemma inv_with_has hole pend w l : inv hole pend w -> inv hole pend (with_has l w).
Proof. start. split; auto. Qed.


Definition ids (p : list (nat * nat * nat)) : list nat := map (fun x => fst (fst x)) p.
Lemma inv_perm hole p q w : Permutation (ids p) (ids q) -> inv hole p w -> inv hole q w.
Proof.
  intros P. start. split; auto.
  - eapply Permutation_NoDup; eauto.
  - intros s. rewrite I10. split; apply Permutation_in; auto. symmetry; auto.
Qed.

Lemma close_retry s w : w_retry (close s w) = w_retry w.
Proof. unfold close. destruct (w_fate w s); auto. Qed.
Lemma despawn_retry s w : w_retry (despawn s w) = w_retry w.
Proof. unfold despawn. destruct (w_place w s); auto. rewrite close_retry. auto. Qed.
Lemma consume_retry s c w : w_retry (consume s c w) = w_retry w.
Proof. unfold consume. destruct c; [rewrite despawn_retry; auto|]. destruct (w_place _ _); rewrite ?close_retry; auto. Qed.

Lemma inv_subscribe s e n rest w :
  inv None ((s, e, n) :: rest ++ w_retry w) w -> let w' := subscribe s e n w in inv None (rest ++ w_retry w') w'.
Proof.
  intros I. cbv zeta. unfold subscribe. destruct (w_has w e) as [|c os].
  - destruct n.
    + apply inv_drop in I. exact I.
    + cbn [with_retry w_retry]. apply inv_with_retry. revert I. apply inv_perm. unfold ids. cbn. rewrite !map_app. cbn.
      rewrite app_assoc. apply Permutation_cons_append.
  - rewrite consume_retry. eapply inv_consume; eauto.
Qed.
Lemma inv_retries rest : forall w, inv None (rest ++ w_retry w) w ->
  let w' := fold_left (fun w '(s, e, n) => subscribe s e n w) rest w in inv None (w_retry w') w'.
Proof.
  induction rest as [|[[s e] n] rest IH]; cbn; auto. intros w I. apply IH. apply inv_subscribe; auto.
Qed.
Lemma inv_retry_all w : inv None (w_retry w) w -> inv None (w_retry (retry_all w)) (retry_all w).
Proof. intros I. unfold retry_all. apply inv_retries. cbn. rewrite app_nil_r. apply inv_with_retry; auto. Qed.

Lemma inv_spawn e pend w : inv None pend w -> inv None ((w_next w, e, max_retries) :: pend)
  (log (TSpawn (w_next w) e) (with_fate (w_next w) Waiting (with_place (w_next w) Reserved (with_next (S (w_next w)) w)))).
Proof.
  start. set (s := w_next w) in *.
  assert (Hs : spawned s (w_tr w) = false) by (rewrite I4; apply Nat.ltb_irrefl).
  assert (Hn : subscribed s (w_tr w) = false /\ over s (w_tr w) = false /\ gone s (w_tr w) = false /\ attached s (w_tr w) = false).
  { assert (Hx := I5 s). repeat split; match goal with |- ?b = false => destruct b; auto end; rewrite Hs in Hx; symmetry; apply Hx; auto. }
  destruct Hn as (Hn1 & Hn2 & Hn3 & Hn4).
  assert (Hf : w_fate w s = Unborn) by (rewrite I3; unfold fate_of; rewrite Hn2, Hn1, Hs; auto).
  split; cbn [log with_place with_fate with_next w_tr w_place w_fate w_next w_work]; auto.
  - apply always_snoc; cbn; auto.
  - intros i. rewrite place_snoc. unfold upd. rewrite (Nat.eqb_sym s i). destruct (i =? s) eqn:E; auto. apply Nat.eqb_eq in E; subst i. rewrite Hn3, Hn4. auto.
  - intros i. rewrite fate_snoc. unfold upd. rewrite (Nat.eqb_sym s i). destruct (i =? s) eqn:E; auto. apply Nat.eqb_eq in E; subst i. rewrite Hn2, Hn1. auto.
  - intros i. assert (Hx := I4 i). trc. rewrite Hx. fold s. destruct (s =? i) eqn:E.
    + apply Nat.eqb_eq in E. subst i. rewrite orb_true_r. symmetry. apply Nat.ltb_lt. lia.
    + apply Nat.eqb_neq in E. rewrite orb_false_r. destruct (i <? s) eqn:F; symmetry; [apply Nat.ltb_lt in F; apply Nat.ltb_lt|apply Nat.ltb_ge in F; apply Nat.ltb_ge]; lia.
  - intros i H. assert (Hx := I5 i). trc. rewrite Hx; auto.
  - intros i. trc. auto.
  - intros i. other i s; [rewrite upd_same; discriminate|rewrite !upd_other by auto; auto].
  - intros i. other i s; [rewrite !upd_same; discriminate|rewrite !upd_other by auto; auto].
  - intros i Hi. other i s; [apply I8' in Hi; congruence|rewrite upd_other by auto; auto].
  - cbn. constructor; auto. intros H. apply I10 in H. congruence.
  - intros i. cbn. other i s; [rewrite upd_same; tauto|rewrite upd_other by auto]. rewrite I10. intuition congruence.
Qed.

Lemma inv_fold (f : world -> nat -> world) :
  (forall w s, w_retry (f w s) = w_retry w) -> (forall w s p, inv None p w -> inv None p (f w s)) ->
  forall l w, inv None (w_retry w) w -> inv None (w_retry (fold_left f l w)) (fold_left f l w).
Proof. intros H1 H2 l. induction l; cbn; auto. intros w I. apply IHl. rewrite H1. auto. Qed.


Definition sound (w : world) : Prop := inv None (w_retry w) w.

Lemma close_place s w : w_place (close s w) = w_place w.
Proof. unfold close. destruct (w_fate w s); auto. Qed.
Lemma despawn_place s w i : w_place (despawn s w) i = w_place w i \/ (i = s /\ w_place (despawn s w) i = Despawned).
Proof.
  unfold despawn. destruct (w_place w s) eqn:E; auto; rewrite ?close_place; cbn; unfold upd; destruct (i =? s) eqn:F; auto; apply Nat.eqb_eq in F; auto.
Qed.
Lemma despawn_not s w : w_place (despawn s w) s = Nowhere \/ w_place (despawn s w) s = Despawned.
Proof. unfold despawn. destruct (w_place w s) eqn:E; auto; rewrite ?close_place; cbn; rewrite upd_same; auto. Qed.

(** The executor runs the despawns it was given. *)
Lemma despawn_over s w : w_fate w s = Over -> forall x, despawn s (with_work x w) = with_work x (despawn s w) /\ w_work (despawn s w) = w_work w /\ w_fate (despawn s w) = w_fate w.
Proof.
  intros H x. unfold despawn. cbn. destruct (w_place w s); auto. unfold close. cbn. rewrite H. auto.
Qed.
Lemma inv_done s x pend w : inv None pend (with_work (s :: x) w) -> w_place w s <> Held -> inv None pend (with_work x w).
Proof.
  start. cbn in *. split; auto; cbn.
  - intros i Hp Hf. destruct (I8 i Hp Hf); auto. congruence.
  - intros i Hi. apply I8'. auto.
Qed.
Lemma inv_tick l : forall w, w_work w = [] -> inv None (w_retry w) (with_work l w) ->
  let w' := fold_left (fun w s => despawn s w) l w in sound w' /\ w_work w' = [].
Proof.
  induction l as [|s l IH]; intros w Hw I; cbn.
  - split; auto. unfold sound. destruct w; cbn in *; subst. exact I.
  - assert (Ho : w_fate w s = Over) by (apply (v_over I s); cbn; auto).
    destruct (despawn_over s w Ho (s :: l)) as (E1 & E2 & _). apply IH.
    + congruence.
    + rewrite despawn_retry. apply inv_done with s.
      * rewrite <- E1. apply inv_despawn. auto.
      * destruct (despawn_not s w) as [->| ->]; discriminate.
Qed.

Lemma sound_init : sound init.
Proof.
  split; cbn; auto; try discriminate; try tauto.
  - apply always_nil.
  - constructor.
  - split; [discriminate|tauto].
Qed.
Lemma sound_perform a w : sound w -> sound (perform a w).
Proof.
  intros I. apply inv_do with (a := a) in I. change (w_retry w) with (w_retry (log (TDo a) w)) in I.
  unfold perform. cbv zeta. set (w0 := log (TDo a) w) in *. clearbody w0. unfold sound. destruct a.
  - apply (@inv_subscribe (w_next w0) e max_retries []). cbn [app]. apply inv_spawn. auto.
  - rewrite despawn_retry. apply inv_despawn; auto.
  - cbn. apply inv_with_has; auto.
  - rewrite close_retry. eapply inv_close; eauto.
  - apply inv_retry_all; auto.
  - apply inv_fold; auto.
    + intros w' s. destruct (w_place w' s); auto. apply despawn_retry.
    + intros w' s q Iq. destruct (w_place w' s); auto. apply inv_despawn; auto.
  - apply inv_tick; auto. destruct w0; auto.
  - apply inv_retry_all in I. apply inv_fold; auto.
    + intros w' s. destruct (w_place w' s); auto. apply close_retry.
    + intros w' s q Iq. destruct (w_place w' s); auto. eapply inv_close; eauto.
Qed.
Lemma run_app g h w : run (g ++ h) w = run h (run g w).
Proof. apply fold_left_app. Qed.
Lemma sound_run h : sound (run h init).
Proof.
  induction h as [|a h IH] using rev_ind; [apply sound_init|]. rewrite run_app. apply sound_perform; auto.
Qed.

Lemma ecs_orderly h : always orderly (w_tr (run h init)).
Proof. apply (v_good (sound_run h)). Qed.

Lemma sound_reachable w : sound w -> reachable (w_tr w) /\ unsubscribed (w_tr w).
Proof.
  start. split; intros s H1 H2.
  - assert (Hf : w_fate w s = Open) by (rewrite I3; unfold fate_of; rewrite H2, H1; auto).
    destruct (I7 s Hf) as [E|E]; [discriminate|]. pose proof (place_cases (w_tr w) s) as Hp. rewrite <- I2, E in Hp. tauto.
  - destruct (over s (w_tr w)) eqn:H3; auto. exfalso.
    assert (Hf : w_fate w s = Open) by (rewrite I3; unfold fate_of; rewrite H3, (I6 s H1); auto).
    destruct (I7 s Hf) as [E|E]; [discriminate|]. pose proof (place_cases (w_tr w) s) as Hp. rewrite <- I2, E in Hp. destruct Hp. congruence.
Qed.
Lemma ecs_reachable h : reachable (w_tr (run h init)).
Proof. apply (sound_reachable (sound_run h)). Qed.
Lemma ecs_unsubscribed h : unsubscribed (w_tr (run h init)).
Proof. apply (sound_reachable (sound_run h)). Qed.

Lemma ecs_tidy h : tidy (w_tr (run (h ++ [ATick]) init)).
Proof.
  rewrite run_app. cbn [run fold_left]. pose proof (sound_run h) as I. set (w := run h init) in *. clearbody w.
  apply inv_do with (a := ATick) in I. unfold perform. cbv zeta. set (w0 := log (TDo ATick) w) in *.
  change (w_retry w) with (w_retry w0) in I. clearbody w0.
  destruct (@inv_tick (w_work w0) (with_work [] w0)) as [S W]; auto. { destruct w0; auto. }
  intros s H1 H2. destruct (gone s _) eqn:H3; auto. exfalso.
  match type of S with sound ?x => set (w' := x) in * end.
  assert (Hp : w_place w' s = Held). { rewrite (v_place S). unfold place_of. fold w' in H3. rewrite H3, H2. auto. }
  assert (Hf : w_fate w' s = Over). { rewrite (v_fate S). unfold fate_of. fold w' in H1. rewrite H1. auto. }
  pose proof (v_work S s Hp Hf) as Hi. rewrite W in Hi. destruct Hi.
Qed.

(** The clean up. *)
Lemma ecs_clean h : clean (w_tr (run (h ++ [AClean]) init)).
Proof.
  pose proof (sound_run (h ++ [AClean])) as S. rewrite run_app in *. cbn [run fold_left] in *.
  pose proof (sound_run h) as I. set (w := run h init) in *. clearbody w.
  intros s H1 H2. destruct (attached s _) eqn:H3; auto. exfalso.
  assert (Hp : w_place (perform AClean w) s = Reserved).
  { rewrite (v_place S). unfold place_of. rewrite H2, H3, H1. auto. }
  assert (Hn : s < w_next (perform AClean w)). { apply Nat.ltb_lt. rewrite <- (v_next S). auto. }
  clear - Hp Hn. revert Hp Hn. unfold perform. cbv zeta. set (w0 := log (TDo AClean) w). clearbody w0. unfold subscriptions.
  set (f := fun (w : world) (s : nat) => match w_place w s with Reserved => despawn s w | _ => w end).
  assert (Hk : forall l w, w_next (fold_left f l w) = w_next w).
  { intros l. induction l as [|i l IH]; cbn; auto. intros w'. rewrite IH. unfold f, despawn, close. destruct (w_place w' i); auto. }
  assert (Hs : forall w i, w_place w s <> Reserved -> w_place (f w i) s <> Reserved).
  { intros w' i Hx. unfold f. destruct (w_place w' i) eqn:E; auto. destruct (despawn_place i w' s) as [->|[_ ->]]; auto. discriminate. }
  assert (Hl : forall l w, w_place w s <> Reserved -> w_place (fold_left f l w) s <> Reserved).
  { intros l. induction l; cbn; auto. }
  assert (Hm : forall l w, In s l -> w_place (fold_left f l w) s <> Reserved).
  { intros l. induction l as [|i l IH]; cbn; [tauto|]. intros w' [->|Hi]; auto. apply Hl. unfold f. destruct (w_place w' s) eqn:E; try congruence.
    destruct (despawn_not s w') as [->| ->]; discriminate. }
  rewrite Hk. intros Hp Hn. revert Hp. apply Hm. apply in_seq. lia.
Qed.
