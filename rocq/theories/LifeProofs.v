(** Proofs about [LifeModel]. *)
From Coq Require Import NArith.
From Verif Require Import Base SubscrModel LifeModel.
Set Implicit Arguments.

(** What history means, said without the flags. *)
Section Hist.
Variables A E : Type.
Notation change := (change A E).

Definition valued (c : change) : Prop := match c with Upd (Nxt _) => True | _ => False end.
Definition completing (c : change) : Prop := match c with Upd Cmp => True | _ => False end.
Definition failing (c : change) : Prop := match c with Upd (Err _) => True | _ => False end.
Definition unsubscribing (c : change) : Prop := match c with Upd Uns | Ensure => True | _ => False end.
Definition some_of (P : change -> Prop) (h : list change) : Prop := exists c, In c h /\ P c.

(** The flags as booleans. *)
Definition bits (w p c e u : bool) : N :=
  N.lor (if w then 1 else 0) (N.lor (if p then 2 else 0) (N.lor (if c then 4 else 0)
  (N.lor (if e then 8 else 0) (if u then 16 else 0))))%N.

Definition has (f : change -> bool) (h : list change) : bool := existsb f h.
Definition vb (c : change) := match c with Upd (Nxt _) => true | _ => false end.
Definition cb (c : change) := match c with Upd Cmp => true | _ => false end.
Definition eb (c : change) := match c with Upd (Err _) => true | _ => false end.
Definition ub (c : change) := match c with Upd Uns | Ensure => true | _ => false end.
Definition nonempty {Y} (l : list Y) : bool := match l with [] => false | _ => true end.

Lemma has_iff : forall f P h, (forall c, f c = true <-> P c) -> has f h = true <-> some_of P h.
Proof.
  intros f P h HP. unfold has, some_of. rewrite existsb_exists. split; intros (c & Hi & Hc); exists c; split; auto; now apply HP.
Qed.
Lemma vb_iff : forall c, vb c = true <-> valued c. Proof. intros [[]|]; simpl; intuition congruence. Qed.
Lemma cb_iff : forall c, cb c = true <-> completing c. Proof. intros [[]|]; simpl; intuition congruence. Qed.
Lemma eb_iff : forall c, eb c = true <-> failing c. Proof. intros [[]|]; simpl; intuition congruence. Qed.
Lemma ub_iff : forall c, ub c = true <-> unsubscribing c. Proof. intros [[]|]; simpl; intuition congruence. Qed.

Lemma apply_app : forall (h h' : list change) s, apply_changes s (h ++ h') =
  match apply_changes s h with Some s' => apply_changes s' h' | None => None end.
Proof. induction h as [|c h IH]; simpl; intros; auto. destruct apply_change; auto. Qed.

Lemma flags : forall (h : list change) s, apply_changes fresh h = Some s ->
  s = bits (negb (nonempty h)) (has vb h) (has cb h) (has eb h) (has ub h) /\
  (has cb h && has eb h = false).
Proof.
  induction h as [|c h IH] using rev_ind; simpl; intros s H.
  - inversion H; subst. split; reflexivity.
  - rewrite apply_app in H. destruct (apply_changes fresh h) as [s1|] eqn:H1; [|discriminate].
    destruct (IH s1 eq_refl) as [-> Hx]. clear IH H1. simpl in H. unfold has in *. rewrite !existsb_app. cbn [existsb].
    replace (nonempty (h ++ [c])) with true by (destruct h; reflexivity).
    destruct (existsb vb h), (existsb cb h), (existsb eb h), (existsb ub h); destruct h as [|c0 h]; destruct c as [[]|]; simpl in *; try discriminate; inversion H; subst; auto.
Qed.

(** *** C44 *)
Lemma state_describes : forall (h : list change) s, apply_changes fresh h = Some s ->
  (is_waiting s = true <-> h = []) /\
  (is_primed s = true <-> some_of valued h) /\
  (is_completed s = true <-> some_of completing h) /\
  (is_errored s = true <-> some_of failing h) /\
  (is_unsubscribed s = true <-> some_of unsubscribing h) /\
  (is_closed s = true <-> some_of (fun c => completing c \/ failing c \/ unsubscribing c) h) /\
  ~ (is_completed s = true /\ is_errored s = true).
Proof.
  intros h s H. destruct (flags _ H) as [-> Hx].
  rewrite <- (@has_iff _ _ h vb_iff), <- (@has_iff _ _ h cb_iff), <- (@has_iff _ _ h eb_iff), <- (@has_iff _ _ h ub_iff).
  assert (HC : some_of (fun c => completing c \/ failing c \/ unsubscribing c) h <-> has cb h || has eb h || has ub h = true).
  { rewrite !orb_true_iff, (@has_iff _ _ h cb_iff), (@has_iff _ _ h eb_iff), (@has_iff _ _ h ub_iff). unfold some_of. firstorder. }
  rewrite HC. clear HC.
  assert (HN : h = [] <-> nonempty h = false) by (destruct h; simpl; intuition congruence). rewrite HN. clear HN.
  destruct (nonempty h), (has vb h), (has cb h), (has eb h), (has ub h); vm_compute in Hx |- *; intuition congruence.
Qed.

(** The compound predicates. *)
Lemma state_compound : forall (h : list change) s, apply_changes fresh h = Some s ->
  (is_finished s = true <-> some_of (fun c => completing c \/ failing c) h) /\
  (is_completed_but_not_primed s = true <-> some_of completing h /\ ~ some_of valued h) /\
  (is_closed_but_primed s = true <-> is_closed s = true /\ some_of valued h) /\
  (is_closed_but_not_primed s = true <-> is_closed s = true /\ ~ some_of valued h) /\
  (is_closed_but_not_completed s = true <-> is_closed s = true /\ ~ some_of completing h) /\
  (is_closed_but_not_errored s = true <-> is_closed s = true /\ ~ some_of failing h).
Proof.
  intros h s H. destruct (flags _ H) as [-> Hx].
  assert (HC : some_of (fun c => completing c \/ failing c) h <-> has cb h || has eb h = true).
  { rewrite !orb_true_iff, (@has_iff _ _ h cb_iff), (@has_iff _ _ h eb_iff). unfold some_of. firstorder. }
  rewrite HC. clear HC.
  rewrite <- (@has_iff _ _ h vb_iff), <- (@has_iff _ _ h cb_iff), <- (@has_iff _ _ h eb_iff).
  destruct (nonempty h), (has vb h), (has cb h), (has eb h), (has ub h); vm_compute in Hx |- *; intuition congruence.
Qed.

Theorem state_matches : forall (h : list change) s (n : ncall A E), apply_changes fresh h = Some s ->
  (notification_matches_state s n = true <->
   some_of (match n with Nxt _ => valued | Err _ => failing | Cmp => completing | Uns => unsubscribing end) h).
Proof. intros h s n H. destruct (state_describes _ H) as (_ & H1 & H2 & H3 & H4 & _). destruct n; assumption. Qed.

(** Which histories the guards accept: nothing but unsubscription after a closing
    notification, and no [unsubscribe] after an unsubscription. *)
Fixpoint accepted (closed gone : bool) (h : list change) : Prop :=
  match h with
  | [] => True
  | Upd (Nxt _) :: r => closed = false /\ accepted closed gone r
  | Upd Uns :: r => gone = false /\ accepted true true r
  | Ensure :: r => accepted true true r
  | Upd _ :: r => closed = false /\ accepted true gone r
  end.

Lemma accepted_spec : forall (h : list change) w p c e u,
  (apply_changes (bits w p c e u) h <> None) <-> accepted (c || e || u) u h.
Proof.
  induction h as [|x h IH]; intros; simpl; [intuition congruence|].
  destruct x as [[a|e0| | ]|]; simpl.
  - replace (set_next (bits w p c e u)) with (if c || e || u then None else Some (bits false true c e u))
      by (destruct w, p, c, e, u; reflexivity).
    destruct (c || e || u) eqn:Hc; [intuition congruence|]. rewrite IH, Hc. intuition.
  - replace (set_error (bits w p c e u)) with (if c || e || u then None else Some (bits false p c true u))
      by (destruct w, p, c, e, u; reflexivity).
    destruct (c || e || u) eqn:Hc; [intuition congruence|]. rewrite IH, orb_true_r. simpl. intuition.
  - replace (set_complete (bits w p c e u)) with (if c || e || u then None else Some (bits false p true e u))
      by (destruct w, p, c, e, u; reflexivity).
    destruct (c || e || u) eqn:Hc; [intuition congruence|]. rewrite IH. simpl. intuition.
  - replace (set_unsubscribe (bits w p c e u)) with (if u then None else Some (bits false p c e true))
      by (destruct w, p, c, e, u; reflexivity).
    destruct u eqn:Hc; [intuition congruence|]. rewrite IH, orb_true_r. intuition.
  - replace (set_unsubscribe_if_not_already (bits w p c e u)) with (bits false p c e true)
      by (destruct w, p, c, e, u; reflexivity).
    rewrite IH, orb_true_r. reflexivity.
Qed.

Lemma guards : forall h : list change, (exists s, apply_changes fresh h = Some s) <-> accepted false false h.
Proof.
  intros h. rewrite <- (accepted_spec h true false false false false).
  change (bits true false false false false) with fresh.
  destruct (apply_changes fresh h) as [s|]; split; [congruence|eauto|intros [s H]; congruence|congruence].
Qed.

(** [update_with_notification_would_be_invalid] predicts the panic. *)
Lemma predicted : forall (s : N) (n : ncall A E),
  update_would_be_invalid s n = true <-> update_with_notification s n = None.
Proof.
  intros s [a|e| | ]; simpl; unfold set_next, set_error, set_complete, set_unsubscribe;
    [destruct (is_closed s)|destruct (is_closed s)|destruct (is_closed s)|destruct (is_unsubscribed s)]; intuition congruence.
Qed.

(** *** C45 *)
Notation ncall := (ncall A E).
Notation notif := (notif A E).
Notation term := (terminal E).

Lemma subscriber_observer : forall (n : ncall) (o : notif),
  observer_of_subscriber n = Some o <-> n = subscriber_of_observer o.
Proof. intros [] []; simpl; intuition congruence. Qed.
Lemma subscriber_terminal : forall (n : ncall) (t : term),
  terminal_of_subscriber n = Some t <-> n = subscriber_of_terminal A t.
Proof. intros [] []; simpl; intuition congruence. Qed.
Lemma subscriber_subscription : forall (n : ncall) (t : subscription_notif),
  subscription_of_subscriber n = Some t <-> n = subscriber_of_subscription A E t.
Proof. intros [] []; simpl; intuition congruence. Qed.
Lemma observer_terminal : forall (n : notif) (t : term),
  terminal_of_observer n = Some t <-> n = terminal_to_observer A t.
Proof. intros [] []; simpl; intuition congruence. Qed.

(** Each subscriber notification is exactly one of: a value, a terminal, an unsubscription. *)
Lemma conversions_cover : forall n : ncall,
  (observer_of_subscriber n = None <-> n = Uns) /\
  (terminal_of_subscriber n = None <-> is_terminal n = false) /\
  (subscription_of_subscriber n = None <-> n <> Uns) /\
  (is_closing n = false <-> exists a, n = Nxt a) /\
  (terminal_of_subscriber n =
   match observer_of_subscriber n with Some o => terminal_of_observer o | None => None end).
Proof.
  intros [a|e| | ]; simpl; repeat split; try congruence; try (intros (a0 & H); congruence); eauto; try discriminate; intros H; exfalso; apply H; reflexivity.
Qed.

(** Pushing what was recorded does what the calls did. *)
Fixpoint told {Y} (d : methods A E Y) (l : list ncall) (y : Y) : Y :=
  match l with
  | [] => y
  | Nxt a :: r => told d r (m_next d a y)
  | Err e :: r => told d r (m_error d e y)
  | Cmp :: r => told d r (m_complete d y)
  | Uns :: r => told d r (m_unsubscribe d y)
  end.

Lemma replay : forall Y (d : methods A E Y) (calls : list ncall) (y : Y),
  fold_left (fun z n => push d n z) (told (recorder A E) calls []) y = told d calls y.
Proof.
  intros Y d calls y.
  assert (H : forall l acc, told (recorder A E) l acc = acc ++ l).
  { induction l as [|[a|e| | ] l IH]; intros acc; simpl; rewrite ?IH, <- ?app_assoc, ?app_nil_r; reflexivity. }
  rewrite H. simpl. revert y. induction calls as [|[a|e| | ] l IH]; intros y; simpl; auto.
Qed.

Lemma push_agree : forall Y (d : methods A E Y) y,
  (forall o, push_observer d o y = push d (subscriber_of_observer o) y) /\
  (forall t, push_terminal d t y = push d (subscriber_of_terminal A t) y) /\
  (forall t, push_terminal d t y = push_observer d (terminal_to_observer A t) y) /\
  (forall s, push_subscription d s y = push d (subscriber_of_subscription A E s) y).
Proof. intros Y d y. repeat split; intros []; reflexivity. Qed.
End Hist.

(** *** C43 *)
Section Queue.
Variables A E : Type.
Notation ncall := (ncall A E).
Notation nqueue := (nqueue A E).
Notation qact := (qact A E).

Fixpoint values (l : list ncall) : list A :=
  match l with [] => [] | Nxt a :: r => a :: values r | _ :: r => values r end.
Fixpoint others (l : list ncall) : list ncall :=
  match l with [] => [] | Nxt _ :: r => others r | n :: r => n :: others r end.
Fixpoint pushed (h : list qact) : list ncall :=
  match h with [] => [] | QPush n :: r => n :: pushed r | QPop :: r => pushed r end.

(** Pushes that keep the observer contract: values, then at most one terminal, then any number
    of unsubscriptions. *)
Fixpoint contract (closed gone : bool) (l : list ncall) : Prop :=
  match l with
  | [] => True
  | Nxt _ :: r => closed = false /\ contract closed gone r
  | Uns :: r => contract true true r
  | _ :: r => closed = false /\ contract true gone r
  end.

(** The bounded queue of values one would write down. *)
Definition enqueue (max : nat) (o : overflow) (a : A) (l : list A) : list A :=
  match o with
  | DropOldest => skipn (length l + 1 - max) (l ++ [a])
  | IgnoreNext => firstn max (l ++ [a])
  end.
Fixpoint ideal (max : nat) (o : overflow) (l : list A) (h : list qact) : list A * list A :=
  match h with
  | [] => ([], l)
  | QPush (Nxt a) :: r => ideal max o (enqueue max o a l) r
  | QPush _ :: r => ideal max o l r
  | QPop :: r =>
      match l with
      | [] => ideal max o [] r
      | a :: l' => let (p, l'') := ideal max o l' r in (a :: p, l'')
      end
  end.

(** The last error pushed. *)
Fixpoint error_of (l : list ncall) : option E :=
  match l with [] => None | Err e :: r => match error_of r with Some e' => Some e' | None => Some e end | _ :: r => error_of r end.
Definition not_error (n : ncall) : bool := match n with Err _ => false | _ => true end.

(** Pops come before the error. *)
Fixpoint no_pop_after_error (errored : bool) (h : list qact) : Prop :=
  match h with
  | [] => True
  | QPush (Err _) :: r => no_pop_after_error true r
  | QPush _ :: r => no_pop_after_error errored r
  | QPop :: r => errored = false /\ no_pop_after_error errored r
  end.

(** Relation of queue and history so far. *)
Definition front_matches (q : nqueue) : Prop :=
  match nq_queue q with [] => True | n :: _ => notification_matches_state (nq_state q) n = true end.
Definition shape (tl : list ncall) (closed gone errored : bool) : Prop :=
  match closed, gone, errored with
  | false, false, false => tl = []
  | true, false, false => tl = [Cmp]
  | true, true, false => exists n, tl = Uns :: repeat Uns n \/ tl = Cmp :: Uns :: repeat Uns n
  | true, false, true => tl = []
  | true, true, true => exists n, tl = Uns :: repeat Uns n
  | _, _, _ => False
  end.
Record QI (q : nqueue) (l : list A) (tl : list ncall) (closed gone errored : bool) : Prop := {
  qi_queue : nq_queue q = map Nxt l ++ tl;
  qi_len : length l <= nq_max q;
  qi_shape : shape tl closed gone errored;
  qi_state : exists w p, nq_state q = bits w p
               (match l, tl with [], Cmp :: _ => true | _, _ => false end) errored
               (match l, tl with [], Uns :: _ => true | _, _ => false end) /\ (l <> [] -> p = true)
}.

Lemma find_nexts : forall (l : list A), l <> [] -> find_index (@is_next A E) (rev (map Nxt l)) = Some 0.
Proof.
  intros l H. destruct l as [|a l] using rev_ind; [congruence|]. rewrite map_app, rev_app_distr. reflexivity.
Qed.
Lemma filter_nexts : forall (l : list A) tl, (forall n, In n tl -> is_next n = false) ->
  length (filter (@is_next A E) (map Nxt l ++ tl)) = length l.
Proof.
  induction l as [|a l IH]; intros tl H; simpl; [|rewrite IH; auto].
  induction tl as [|n tl IHt]; simpl; auto. rewrite (H n); [|now left]. apply IHt. intros; apply H. now right.
Qed.
Ltac ends H := match type of H with
  | exists _, _ => destruct H as [k H]; ends H
  | _ \/ _ => destruct H as [H|H]; ends H
  | _ => idtac
  end.
Lemma shape_nonext : forall tl c g e, shape tl c g e -> forall n, In n tl -> is_next n = false.
Proof.
  assert (R : forall (n : ncall) k, In n (repeat Uns k) -> is_next n = false) by (intros n k H; now rewrite (repeat_spec _ _ _ H)).
  intros tl [] [] []; simpl; intros H n Hn; try contradiction; ends H; subst; simpl in Hn;
    repeat (destruct Hn as [<-|Hn]; [reflexivity|]); try contradiction; eapply R; eassumption.
Qed.

Lemma drop_first : forall (a : A) l, drop_oldest (map (@Nxt A E) (a :: l)) = map Nxt l.
Proof. intros a l. unfold drop_oldest. rewrite find_nexts; [reflexivity|discriminate]. Qed.

Lemma count_values : forall q l tl c g e, QI q l tl c g e -> count_nexts q = length l.
Proof.
  intros q l tl c g e H. unfold count_nexts. rewrite (qi_queue H). apply filter_nexts. exact (shape_nonext _ _ _ _ (qi_shape H)).
Qed.

Lemma enqueue_room : forall max o (a : A) l, length l < max -> enqueue max o a l = l ++ [a].
Proof.
  intros max [] a l H; simpl.
  - replace (length l + 1 - max) with 0 by lia. reflexivity.
  - apply firstn_all2. rewrite app_length. simpl. lia.
Qed.

Lemma push_step : forall q l tl c g e n, QI q l tl c g e -> 0 < nq_max q ->
  contract c g [n] ->
  exists q', nq_push n q = Some q' /\ nq_max q' = nq_max q /\ nq_over q' = nq_over q /\
    nq_error q' = (match n with Err x => Some x | _ => nq_error q end) /\
    QI q' (match n with Nxt a => enqueue (nq_max q) (nq_over q) a l | _ => l end)
          (match n with Cmp => tl ++ [Cmp] | Uns => tl ++ [Uns] | _ => tl end)
          (match n with Nxt _ => c | _ => true end) (match n with Uns => true | _ => g end)
          (match n with Err _ => true | _ => e end).
Proof.
  intros q l tl c g e n HI Hm Hc. pose proof (count_values HI) as Hcnt. destruct HI as [Hq Hl Hs (w & p & Hst & Hp)].
  unfold nq_push. rewrite Hcnt.
  destruct n as [a|x| | ]; simpl in Hc.
  - destruct Hc as [-> _]. destruct g, e; try contradiction. simpl in Hs. subst tl. rewrite app_nil_r in Hq. cbn [is_next]. rewrite andb_true_r.
    destruct (Nat.leb_spec (nq_max q) (length l)) as [Hf|Hf].
    + assert (Hll : length l = nq_max q) by lia. destruct l as [|b l]; [simpl in *; lia|].
      destruct (nq_over q) eqn:Ho; cbn [andb].
      * rewrite Hq. rewrite drop_first. destruct l as [|b2 l].
        -- cbn [map]. rewrite Hst. destruct p; [|specialize (Hp ltac:(discriminate)); discriminate Hp].
           assert (Hy : update_with_notification (bits w true false false false) (@Nxt A E a) = Some (bits false true false false false)) by (destruct w; reflexivity).
           rewrite Hy. eexists; repeat split; auto; simpl.
           ++ rewrite <- Hll. reflexivity.
           ++ rewrite <- Hll. simpl. lia.
           ++ exists false, true. split; auto. rewrite <- Hll. reflexivity.
        -- cbn [map]. eexists; repeat split; auto; cbn [nq_queue nq_max nq_state nq_over enqueue].
           ++ rewrite <- Hll. replace (length (b :: b2 :: l) + 1 - length (b :: b2 :: l)) with 1 by lia. cbn [app skipn]. rewrite app_nil_r. simpl. now rewrite map_app.
           ++ rewrite skipn_length, app_length. cbn [length] in *. lia.
           ++ rewrite <- Hll. replace (length (b :: b2 :: l) + 1 - length (b :: b2 :: l)) with 1 by lia. cbn [app skipn].
              exists w, p. split; auto. intros _. apply Hp. discriminate.
      * exists q. rewrite <- Ho. repeat split; auto; rewrite ?Ho; cbn [enqueue]; rewrite firstn_app, Hll, Nat.sub_diag, firstn_O, app_nil_r, firstn_all2 by lia.
        -- now rewrite app_nil_r.
        -- lia.
        -- exists w, p. split; auto.
    + cbn [andb]. rewrite enqueue_room by lia. rewrite Hq. destruct l as [|b l].
      * cbn [map]. rewrite Hst.
        assert (Hy : update_with_notification (bits w p false false false) (@Nxt A E a) = Some (bits false true false false false)) by (destruct w, p; reflexivity).
        rewrite Hy. eexists; repeat split; auto; simpl. exists false, true. split; auto.
      * cbn [map]. eexists; repeat split; auto; cbn [nq_queue nq_max nq_state].
        -- rewrite app_nil_r. simpl. now rewrite map_app.
        -- rewrite app_length. simpl in *. lia.
        -- exists w, p. split; auto. intros _. apply Hp. discriminate.
  - destruct Hc as [-> _]. destruct g, e; try contradiction. simpl in Hs. subst tl. cbn [is_next]. rewrite andb_false_r. cbn [andb]. rewrite Hst.
    assert (Hy : set_error (bits w p (match l with [] => false | _ => false end) false (match l with [] => false | _ => false end)) = Some (bits false p false true false)) by (destruct l, w, p; reflexivity).
    rewrite Hy. eexists; repeat split; auto; simpl. exists false, p. split; auto. destruct l; auto.
  - destruct Hc as [-> _]. destruct g, e; try contradiction. simpl in Hs. subst tl. cbn [is_next]. rewrite andb_false_r. cbn [andb]. rewrite Hq, Hst. destruct l as [|b l].
    + cbn [map app].
      assert (Hy : update_with_notification (bits w p false false false) (@Cmp A E) = Some (bits false p true false false)) by (destruct w, p; reflexivity).
      rewrite Hy. eexists; repeat split; auto; simpl; try lia. exists false, p. split; auto.
    + cbn [map app]. eexists; repeat split; auto; simpl; rewrite ?app_nil_r; auto. exists w, p. auto.
  - cbn [is_next]. rewrite andb_false_r. cbn [andb]. rewrite Hq, Hst.
    assert (Hsh : shape (tl ++ [Uns]) true true e).
    { assert (R : forall k, repeat (@Uns A E) k ++ [Uns] = Uns :: repeat Uns k) by (intros k; induction k as [|k IHk]; simpl; [|rewrite IHk]; reflexivity).
      destruct c, g, e; simpl in Hs; try contradiction; ends Hs; subst; simpl; rewrite ?R;
        ((exists 0; auto; fail) || (exists (Datatypes.S k); auto)). }
    destruct l as [|b l].
    + destruct tl as [|n tl].
      * cbn [map app].
        assert (Hy : update_with_notification (bits w p false e false) (@Uns A E) = Some (bits false p false e true)) by (destruct w, p, e; reflexivity).
        rewrite Hy. eexists; repeat split; auto; simpl; try lia. exists false, p. split; auto.
      * cbn [map app]. eexists; repeat split; auto; simpl; try lia. exists w, p. split; auto.
    + cbn [map app]. eexists; repeat split; auto; simpl; try now rewrite app_assoc. exists w, p. split; auto.
Qed.

Lemma pop_step : forall q l tl c g, QI q l tl c g false ->
  exists q', nq_pop q = Some (hd_error l, q') /\ nq_max q' = nq_max q /\ nq_over q' = nq_over q /\ nq_error q' = nq_error q /\
    QI q' (List.tl l) tl c g false.
Proof.
  intros q l tl c g HI. destruct HI as [Hq Hl Hs (w & p & Hst & Hp)]. unfold nq_pop. rewrite Hq. destruct l as [|a l].
  - exists q. assert (Hn : match tl with Nxt _ :: _ => False | _ => True end).
    { destruct tl as [|n tl]; auto. pose proof (shape_nonext _ _ _ _ Hs n (or_introl eq_refl)). destruct n; auto. discriminate. }
    simpl. split; [|repeat split; eauto]. destruct tl as [|[] tl]; auto; contradiction.
  - cbn [map app List.tl hd_error]. destruct p; [|specialize (Hp ltac:(discriminate)); discriminate Hp]. rewrite Hst. destruct l as [|b l].
    + cbn [map app]. destruct tl as [|n tl].
      * eexists; repeat split; eauto; simpl; try lia. exists w, true. split; auto.
      * pose proof (shape_nonext _ _ _ _ Hs n (or_introl eq_refl)) as Hn.
        assert (Hy : update_with_notification (bits w true false false false) n =
                     Some (bits false true (match n with Cmp => true | _ => false end) false (match n with Uns => true | _ => false end))).
        { destruct n; simpl in Hn; try discriminate; try (destruct w; reflexivity).
          destruct c, g; simpl in Hs; try contradiction; ends Hs; discriminate. }
        rewrite Hy. eexists; repeat split; eauto; simpl; try lia. exists false, true. split; auto.
    + cbn [map app].
      assert (Hy : update_with_notification (bits w true false false false) (@Nxt A E b) = Some (bits false true false false false)) by (destruct w; reflexivity).
      rewrite Hy. eexists; repeat split; eauto; simpl in *; try lia. exists false, true. split; auto.
Qed.

Definition errd (b : bool) (l : list ncall) : bool := b || existsb (fun n => negb (not_error n)) l.

Lemma run_all : forall h q l tl c g e, QI q l tl c g e -> 0 < nq_max q ->
  contract c g (pushed h) -> no_pop_after_error e h ->
  exists q' c' g' e', nq_run q h = Some (fst (ideal (nq_max q) (nq_over q) l h), q') /\
    nq_max q' = nq_max q /\
    nq_error q' = (match error_of (pushed h) with Some x => Some x | None => nq_error q end) /\
    QI q' (snd (ideal (nq_max q) (nq_over q) l h)) (tl ++ filter not_error (others (pushed h))) c' g' e'.
Proof.
  induction h as [|[n|] h IH]; intros q l tl c g e HI Hm Hc Hp.
  - simpl. rewrite app_nil_r. exists q. eauto 8.
  - cbn [pushed] in Hc. assert (Hc1 : contract c g [n]) by (destruct n; simpl in *; intuition).
    destruct (push_step n HI Hm Hc1) as (q' & Hq' & Hm' & Ho' & He' & HI'). cbn [nq_run]. rewrite Hq'.
    destruct n as [a|x| | ]; cbn [pushed others filter not_error ideal error_of]; cbn [contract] in Hc; cbn [no_pop_after_error] in Hp; try destruct Hc as [_ Hc];
      destruct (IH _ _ _ _ _ _ HI' ltac:(lia) Hc Hp) as (q2 & c2 & g2 & e2 & Hr & Hm2 & He2 & HI2); rewrite Hm', Ho' in *;
      exists q2, c2, g2, e2; rewrite He2, He'; repeat split; auto; try congruence; try (destruct error_of; reflexivity);
      try (destruct HI2; auto; fail); rewrite <- ?app_assoc in HI2; simpl in HI2; destruct HI2; auto.
  - destruct Hp as [-> Hp]. destruct (pop_step HI) as (q' & Hq' & Hm' & Ho' & He' & HI'). cbn [nq_run]. rewrite Hq'. cbn [pushed] in Hc.
    destruct (IH _ _ _ _ _ _ HI' ltac:(lia) Hc Hp) as (q2 & c2 & g2 & e2 & Hr & Hm2 & He2 & HI2). rewrite Hm', Ho', He' in *. rewrite Hr.
    exists q2, c2, g2, e2. cbn [pushed ideal]. destruct l as [|a l]; simpl in *; [auto|]. destruct (ideal (nq_max q) (nq_over q) l h). simpl in *. auto.
Qed.

Lemma QI_new : forall max o, QI (nq_new A E max o) [] [] false false false.
Proof. intros. split; simpl; auto; try lia. exists true, false. split; auto. Qed.

Lemma front_ok : forall q l tl c g e, QI q l tl c g e ->
  match nq_queue q with [] => True | n :: _ => notification_matches_state (nq_state q) n = true end.
Proof.
  intros q l tl c g e [Hq Hl Hs (w & p & Hst & Hp)]. rewrite Hq, Hst. destruct l as [|a l].
  - destruct tl as [|n tl]; [exact Logic.I|]. pose proof (shape_nonext _ _ _ _ Hs n (or_introl eq_refl)) as Hn. cbn [map app].
    destruct n; simpl in Hn; try discriminate; [|destruct w, p, e; reflexivity|destruct w, p, e; reflexivity].
    exfalso. destruct c, g, e; simpl in Hs; try contradiction; ends Hs; discriminate.
  - cbn [map app]. rewrite Hp by discriminate. destruct w, e; reflexivity.
Qed.

Lemma values_app : forall (l : list A) (tl : list ncall), values (map Nxt l ++ tl) = l ++ values tl.
Proof. induction l; simpl; intros; [auto|now rewrite IHl]. Qed.
Lemma others_app : forall (l : list A) (tl : list ncall), others (map Nxt l ++ tl) = others tl.
Proof. induction l; simpl; intros; auto. Qed.
Lemma others_idem : forall (l : list ncall), others (filter not_error (others l)) = filter not_error (others l) /\ values (filter not_error (others l)) = [].
Proof. induction l as [|[a|x| | ] l IH]; simpl; auto; destruct IH as [H1 H2]; rewrite ?H1, ?H2; auto. Qed.

(** *** Pushes that keep the contract, pops before an error. *)
Theorem bounded : forall max o (h : list qact), 0 < max ->
  contract false false (pushed h) -> no_pop_after_error false h ->
  exists q, nq_run (nq_new A E max o) h = Some (fst (ideal max o [] h), q) /\
    values (nq_queue q) = snd (ideal max o [] h) /\
    length (values (nq_queue q)) <= max /\
    others (nq_queue q) = filter not_error (others (pushed h)) /\
    nq_error q = error_of (pushed h) /\
    match nq_queue q with [] => True | n :: _ => notification_matches_state (nq_state q) n = true end.
Proof.
  intros max o h Hm Hc Hp.
  destruct (run_all h (QI_new max o) Hm Hc Hp) as (q & c & g & e & Hr & Hmx & He & HI).
  exists q. cbn [nq_new nq_max nq_over nq_error] in *. split; [exact Hr|].
  pose proof (front_ok HI) as Hf. destruct HI as [Hq Hl _ _]. rewrite Hq in Hf |- *.
  rewrite values_app, others_app. cbn [app]. destruct (others_idem (pushed h)) as [-> ->]. rewrite app_nil_r.
  repeat split; auto; [congruence|]. rewrite He. destruct error_of; auto.
Qed.

Lemma skip_skip : forall Y m n (l : list Y), skipn m (skipn n l) = skipn (m + n) l.
Proof.
  intros Y m n. induction n as [|n IH]; intros l; [now rewrite Nat.add_0_r|].
  rewrite Nat.add_succ_r. destruct l; simpl; [now rewrite skipn_nil|apply IH].
Qed.

(** Without pops, it is the last, or the first, [max] of the pushed values. *)
Lemma ideal_nopop : forall max o ns l, length l <= max ->
  snd (ideal max o l (map (@QPush A E) ns)) =
    match o with
    | DropOldest => skipn (length l + length (values ns) - max) (l ++ values ns)
    | IgnoreNext => firstn max (l ++ values ns)
    end.
Proof.
  intros max o ns. induction ns as [|[a|x| | ] ns IH]; intros l Hl; cbn [map ideal values]; try exact (IH l Hl).
  - cbn [snd]. rewrite app_nil_r. cbn [length]. rewrite Nat.add_0_r. destruct o; [replace (length l - max) with 0 by lia; reflexivity|now rewrite firstn_all2].
  - destruct o; cbn [enqueue] in *.
    + rewrite IH by (rewrite skipn_length, app_length; simpl; lia).
      rewrite skipn_length, app_length. cbn [length].
      replace (l ++ a :: values ns) with ((l ++ [a]) ++ values ns) by now rewrite <- app_assoc.
      set (x := length l + 1 - max). assert (Hx : x <= length (l ++ [a])) by (rewrite app_length; simpl; lia).
      assert (He : skipn x (l ++ [a]) ++ values ns = skipn x ((l ++ [a]) ++ values ns)).
      { rewrite (skipn_app x (l ++ [a]) (values ns)). replace (x - length (l ++ [a])) with 0 by lia. reflexivity. }
      rewrite He, skip_skip. f_equal. unfold x in *. rewrite app_length in Hx. simpl in *. lia.
    + rewrite IH by (rewrite firstn_length; lia).
      replace (l ++ a :: values ns) with ((l ++ [a]) ++ values ns) by now rewrite <- app_assoc.
      rewrite (firstn_app max (l ++ [a]) (values ns)), (firstn_app max (firstn max (l ++ [a])) (values ns)), firstn_firstn, Nat.min_id. f_equal. rewrite firstn_length. f_equal. lia.
Qed.

Theorem kept : forall max o (ns : list ncall), 0 < max -> contract false false ns ->
  exists q, nq_run (nq_new A E max o) (map (@QPush A E) ns) = Some ([], q) /\
    values (nq_queue q) = match o with
                          | DropOldest => skipn (length (values ns) - max) (values ns)
                          | IgnoreNext => firstn max (values ns)
                          end.
Proof.
  intros max o ns Hm Hc.
  assert (Hpu : pushed (map (@QPush A E) ns) = ns) by (clear; induction ns; simpl; congruence).
  assert (Hnp : forall b, no_pop_after_error b (map (@QPush A E) ns)) by (clear; induction ns as [|[] ns IH]; simpl; auto).
  assert (Hfst : forall l, fst (ideal max o l (map (@QPush A E) ns)) = []) by (clear; induction ns as [|[] ns IH]; simpl; auto).
  destruct (@bounded max o (map (@QPush A E) ns) Hm) as (q & Hr & Hv & _); [now rewrite Hpu|apply Hnp|].
  exists q. rewrite Hr, Hfst, Hv, ideal_nopop by (simpl; lia). auto.
Qed.
End Queue.
