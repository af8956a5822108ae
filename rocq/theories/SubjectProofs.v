(** Proofs about SubjectModel: what every subscriber is told is [view_of] the calls made. *)
From Coq Require Import Permutation.
From Verif Require Import Base SubjectModel SubjectSpec.
Set Implicit Arguments.

Section View.
Context {A E : Type} (quits : list (sev A E) -> bool).

Lemma view_of_app : forall i cs c,
  view_of quits i (cs ++ [c]) = view_step quits i (view_of quits i cs) c.
Proof. intros. unfold view_of. rewrite fold_left_app. reflexivity. Qed.

Lemma view_ended : forall i cs, vw_end (view_of quits i cs) <> None ->
  vw_live (view_of quits i cs) = false.
Proof.
  intros i cs. induction cs as [|c cs IH] using rev_ind; [reflexivity|].
  rewrite view_of_app. destruct (view_of quits i cs) as [n x l t]. cbn in IH.
  destruct c; cbn; unfold finish; cbn.
  - destruct l; cbn; auto. intros H. apply IH in H. discriminate.
  - destruct x; cbn; auto.
  - destruct x; cbn; auto.
  - destruct x; cbn; auto.
  - destruct (n =? i), x; cbn; auto; try congruence.
  - destruct (i0 =? i), l; cbn; auto.
Qed.

Lemma view_fresh : forall i cs, vw_subs (view_of quits i cs) <= i ->
  vw_live (view_of quits i cs) = false /\ vw_told (view_of quits i cs) = [].
Proof.
  intros i cs. induction cs as [|c cs IH] using rev_ind; [auto|].
  rewrite view_of_app. destruct (view_of quits i cs) as [n x l t]. cbn in IH.
  destruct c; cbn; unfold finish; cbn.
  - destruct l; cbn; auto. intros H. apply IH in H. destruct H; discriminate.
  - destruct x; cbn; intros H; apply IH in H; destruct H; subst; auto.
  - destruct x; cbn; intros H; apply IH in H; destruct H; subst; auto.
  - destruct x; cbn; intros H; apply IH in H; destruct H; subst; auto.
  - destruct (n =? i) eqn:Hn; [apply Nat.eqb_eq in Hn|]; destruct x; cbn; intros; try lia; apply IH; lia.
  - destruct (i0 =? i), l; cbn; intros H; apply IH in H; destruct H; auto; discriminate.
Qed.

End View.

Section Subject.
Context {A E : Type}.
Context (prog : nat -> list (sev A E) -> list (ucmd A E) * bool).
Context (ord : nat -> list nat -> list nat).
Context (ord_perm : forall k l, Permutation l (ord k l)).
Context (P : policy A E).
Notation subject := (subject A E (po_store P)).
Implicit Types s : subject.

Definition quits (i : nat) (h : list (sev A E)) : bool := snd (prog i h).

(** The view of one subscriber, driven by queued notifications. *)
Record mview : Type := mkMview { mv_end : bool; mv_live : bool; mv_told : list (sev A E) }.
(** [sh]: the subscriber closed itself before it was added. *)

Definition mclosing (m : mnot A E) : bool := is_unsub m || is_terminal m.

Definition mstep (sh : bool) (i : nat) (v : mview) (m : mnot A E) : mview :=
  if mv_end v then v else
  match m with
  | MNext a => if mv_live v
               then mkMview false (negb (quits i (mv_told v ++ [SN a]))) (mv_told v ++ [SN a])
               else v
  | MErr e => mkMview true false (if mv_live v then mv_told v ++ [SE e] else mv_told v)
  | MCmp => mkMview true false (if mv_live v then mv_told v ++ [SC] else mv_told v)
  | MUns => mkMview true false (if mv_live v then mv_told v ++ [SU] else mv_told v)
  | MOff j => if Nat.eqb j i && mv_live v then mkMview false false (mv_told v ++ [SU]) else v
  | MAdd j => if Nat.eqb j i then mkMview false (negb sh) (mv_told v) else v
  end.

Definition msteps sh i (v : mview) (l : list (mnot A E)) : mview := fold_left (mstep sh i) l v.

Definition inb (i : nat) (l : list nat) : bool := existsb (Nat.eqb i) l.

Arguments inb : simpl never.

Lemma inb_In : forall i l, inb i l = true <-> In i l.
Proof.
  intros. unfold inb. rewrite existsb_exists. split.
  - intros (x & H & Hx). apply Nat.eqb_eq in Hx. subst. auto.
  - intros H. exists i. split; auto. apply Nat.eqb_refl.
Qed.

Definition is_add (i : nat) (m : mnot A E) : bool :=
  match m with MAdd j => Nat.eqb j i | _ => false end.

Fixpoint adds (i : nat) (l : list (mnot A E)) : nat :=
  match l with [] => 0 | m :: l' => (if is_add i m then 1 else 0) + adds i l' end.

Lemma adds_app : forall i l1 l2, adds i (l1 ++ l2) = adds i l1 + adds i l2.
Proof. induction l1; cbn; intros; auto. rewrite IHl1. lia. Qed.

Fixpoint okp (i : nat) (k : bool) (l : list (mnot A E)) : Prop :=
  match l with
  | [] => True
  | m :: l' => (k = true -> is_add i m = false) /\ okp i (k || mclosing m) l'
  end.

Fixpoint closes (l : list (mnot A E)) : bool :=
  match l with [] => false | m :: l' => mclosing m || closes l' end.

Lemma okp_app : forall i l1 l2 k,
  okp i k (l1 ++ l2) <-> okp i k l1 /\ okp i (k || closes l1) l2.
Proof.
  induction l1 as [|m l1 IH]; intros l2 k; cbn.
  - rewrite orb_false_r. tauto.
  - rewrite IH, orb_assoc. tauto.
Qed.

Lemma okp_true : forall i l, okp i true l -> adds i l = 0.
Proof.
  induction l as [|m l IH]; cbn; auto. intros [H1 H2]. rewrite H1 by auto. auto.
Qed.

Lemma mstep_end : forall sh i v m, mv_end (mstep sh i v m) = mv_end v || mclosing m.
Proof.
  intros sh i [k l t] m. unfold mstep. cbn. destruct k; cbn; auto.
  destruct m; cbn; auto.
  - destruct l; auto.
  - destruct (i0 =? i), l; auto.
  - destruct (i0 =? i); auto.
Qed.

Lemma msteps_end : forall sh i l v, mv_end (msteps sh i v l) = mv_end v || closes l.
Proof.
  induction l as [|m l IH]; intros v; cbn.
  - rewrite orb_false_r. auto.
  - unfold msteps in IH. rewrite IH, mstep_end, orb_assoc. auto.
Qed.

Lemma msteps_app : forall sh i l1 l2 v, msteps sh i v (l1 ++ l2) = msteps sh i (msteps sh i v l1) l2.
Proof. intros. unfold msteps. apply fold_left_app. Qed.

(** Without an addition, a subscriber that is not live stays as it is. *)
Lemma mstep_dead : forall sh i k t m, sh = true \/ is_add i m = false ->
  mstep sh i (mkMview k false t) m = mkMview (k || mclosing m) false t.
Proof.
  intros sh i k t m H. unfold mstep. cbn. destruct k; cbn; auto.
  destruct m; cbn in *; auto.
  - rewrite andb_false_r. auto.
  - destruct H as [-> | ->]; auto. destruct (i0 =? i); auto.
Qed.

Lemma msteps_dead : forall sh i l k t, sh = true \/ adds i l = 0 ->
  msteps sh i (mkMview k false t) l = mkMview (k || closes l) false t.
Proof.
  induction l as [|m l IH]; intros k t H; cbn in *.
  - rewrite orb_false_r. auto.
  - assert (H1 : sh = true \/ is_add i m = false).
    { destruct H; auto. right. destruct (is_add i m); auto. lia. }
    rewrite mstep_dead by auto. unfold msteps in IH. rewrite IH, orb_assoc; auto.
    destruct H; auto. right. lia.
Qed.

Lemma msteps_sh : forall sh sh' i l v, adds i l = 0 -> msteps sh i v l = msteps sh' i v l.
Proof.
  induction l as [|m l IH]; intros v H; cbn in *; auto.
  assert (mstep sh i v m = mstep sh' i v m).
  { destruct m; auto. cbn in H. unfold mstep. destruct (i0 =? i); auto. lia. }
  unfold msteps in IH. rewrite H0. apply IH. lia.
Qed.

Definition base (i : nat) s (k : bool) : mview :=
  mkMview k (inb i (sj_tbl s) && negb (sj_shut s i)) (history s i).

Definition obs_ok s (x : option (ending E)) : Prop :=
  match x with
  | None => sj_cmp s = false /\ sj_uns s = false /\ sj_err s = None /\ sj_flag s = false
  | Some (EndErr e) => sj_err s = Some e
  | Some EndCmp => sj_cmp s = true /\ sj_err s = None
  | Some EndUns => sj_uns s = true /\ sj_cmp s = false /\ sj_err s = None
  end.

Definition vw (i : nat) s : view A E := view_of (quits i) i (sj_made s).

(** [pre] is what subscriber [i] still has coming before the queue. *)
Record J (i : nat) s (pre : list (mnot A E)) (k : bool) : Prop := mkJ {
  j_live : mv_live (msteps (sj_shut s i) i (base i s k) (pre ++ sj_queue s)) = vw_live (vw i s);
  j_told : mv_told (msteps (sj_shut s i) i (base i s k) (pre ++ sj_queue s)) = vw_told (vw i s);
  j_end : k || closes (pre ++ sj_queue s) = match vw_end (vw i s) with Some _ => true | None => false end;
  j_subs : vw_subs (vw i s) = sj_next_id s;
  j_obs : obs_ok s (vw_end (vw i s));
  j_ok : okp i k (pre ++ sj_queue s);
  j_once : adds i (pre ++ sj_queue s) + (if inb i (sj_tbl s) then 1 else 0) <= 1;
  j_fresh : sj_next_id s <= i ->
    adds i (pre ++ sj_queue s) = 0 /\ inb i (sj_tbl s) = false /\ history s i = [] /\
    sj_taken s i = false /\ sj_shut s i = false;
  j_taken : sj_taken s i = true -> vw_live (vw i s) = false;
  j_k : k = true -> mv_live (base i s k) = false
}.


Lemma closed_iff : forall i s pre k, J i s pre k ->
  sj_closed s = match vw_end (vw i s) with Some _ => true | None => false end.
Proof.
  intros i s pre k H. pose proof (j_obs H) as Ho. unfold sj_closed.
  destruct (vw_end (vw i s)) as [[e| |]|]; cbn in Ho.
  - rewrite Ho. rewrite orb_true_r. auto.
  - destruct Ho as [-> ->]. rewrite orb_true_r. auto.
  - destruct Ho as (-> & -> & ->). rewrite orb_true_r. auto.
  - destruct Ho as (-> & -> & -> & ->). auto.
Qed.

(** Being at the front of the queue of a subscriber that is not listening. *)
Lemma J_skip : forall i s m pre k, J i s (m :: pre) k ->
  mv_live (base i s k) = false -> is_add i m = false -> J i s pre (k || mclosing m).
Proof.
  intros i s m pre k H Hl Hm.
  assert (Hb : mstep (sj_shut s i) i (base i s k) m = base i s (k || mclosing m)).
  { unfold base in *. cbn in Hl. rewrite Hl. rewrite mstep_dead; auto. }
  destruct H; cbn [app msteps fold_left adds okp closes] in *.
  constructor; auto.
  - rewrite <- Hb. assumption.
  - rewrite <- Hb. assumption.
  - rewrite <- orb_assoc. auto.
  - tauto.
  - rewrite Hm in j_once0. exact j_once0.
  - rewrite Hm in j_fresh0. auto.
Qed.

Lemma J_noop : forall i s m pre k, J i s (m :: pre) k ->
  is_add i m = false -> mclosing m = false ->
  mstep (sj_shut s i) i (base i s k) m = base i s k ->
  J i s pre k.
Proof.
  intros i s m pre k H Hm Hc Hb.
  destruct H; cbn [app msteps fold_left adds okp closes] in *.
  rewrite Hm in *. rewrite Hc in *. rewrite Hb in *. cbn [orb] in *. rewrite orb_false_r in *.
  constructor; auto. tauto.
Qed.

Lemma J_noop_add : forall i s j pre k, J i s (MAdd j :: pre) k ->
  sj_shut s j = true -> J i s pre k.
Proof.
  intros i s j pre k H Hs. destruct (Nat.eq_dec j i) as [->|Hne].
  - assert (Hb : mstep (sj_shut s i) i (base i s k) (MAdd i) = base i s k).
    { unfold base. rewrite Hs, andb_false_r, mstep_dead; auto. rewrite orb_false_r. auto. }
    destruct H; cbn [app msteps fold_left adds okp closes] in *.
    rewrite Hb in *. cbn [mclosing is_unsub is_terminal orb] in *. rewrite orb_false_r in *.
    constructor; auto; try tauto.
    + lia.
    + intros X. apply j_fresh0 in X. cbn in X. rewrite Nat.eqb_refl in X. destruct X. lia.
  - assert (Hne' : (j =? i) = false) by (apply Nat.eqb_neq; auto).
    eapply J_noop; eauto. unfold mstep. rewrite Hne'. destruct (mv_end _); auto.
Qed.

(** ** Calls from inside *)

Lemma history_event : forall s i e c j,
  history (with_event s i e c) j = if Nat.eqb i j then history s j ++ [e] else history s j.
Proof.
  intros. unfold history. cbn. rewrite filter_app, map_app. cbn.
  destruct (i =? j); cbn; auto using app_nil_r.
Qed.

Lemma vw_made : forall i s c,
  vw i (with_made s c) = view_step (quits i) i (vw i s) c.
Proof. intros. unfold vw. cbn. apply view_of_app. Qed.

(** A call that is recorded and has no effect on [i]. *)
Lemma J_ignored : forall i s c pre k, J i s pre k ->
  view_step (quits i) i (vw i s) c = vw i s -> J i (with_made s c) pre k.
Proof.
  intros i s c pre k H Hv. destruct H.
  constructor; try rewrite vw_made, Hv; auto.
Qed.


Definition some {X} (o : option X) : bool := match o with Some _ => true | None => false end.

Lemma J_msteps : forall i s pre k, J i s pre k ->
  msteps (sj_shut s i) i (base i s k) (pre ++ sj_queue s) =
  mkMview (some (vw_end (vw i s))) (vw_live (vw i s)) (vw_told (vw i s)).
Proof.
  intros i s pre k H. destruct H.
  pose proof (msteps_end (sj_shut s i) i (pre ++ sj_queue s) (base i s k)) as He.
  destruct (msteps (sj_shut s i) i (base i s k) (pre ++ sj_queue s)) as [a b d].
  cbn in *. subst. f_equal. auto.
Qed.


(** A call that is recorded and queued. *)
Lemma J_push : forall i s s1 m c pre k, J i s pre k ->
  let v := view_step (quits i) i (vw i s) c in
  sj_tbl s1 = sj_tbl s -> sj_shut s1 i = sj_shut s i -> history s1 i = history s i ->
  sj_made s1 = sj_made s ++ [c] -> sj_queue s1 = sj_queue s ++ [m] ->
  sj_next_id s1 = vw_subs v -> sj_next_id s <= sj_next_id s1 ->
  (sj_taken s1 i = true -> vw_live v = false) ->
  (sj_next_id s1 <= i -> sj_taken s1 i = false) ->
  is_add i m = false ->
  obs_ok s1 (vw_end v) ->
  mstep (sj_shut s i) i (mkMview (some (vw_end (vw i s))) (vw_live (vw i s)) (vw_told (vw i s))) m =
     mkMview (some (vw_end v)) (vw_live v) (vw_told v) ->
  J i s1 pre k.
Proof.
  intros i s s1 m c pre k H v Ht Hs Hhi Hm Hq Hn Hle Htk Htk2 Hadd Ho Hst.
  assert (Hvw : vw i s1 = v).
  { unfold vw. rewrite Hm. apply view_of_app. }
  pose proof (J_msteps H) as Hms. destruct H.
  assert (Hb : base i s1 k = base i s k).
  { unfold base. rewrite Ht, Hs, Hhi. auto. }
  assert (Hms2 : msteps (sj_shut s1 i) i (base i s1 k) (pre ++ sj_queue s1) =
     mkMview (some (vw_end (vw i s1))) (vw_live (vw i s1)) (vw_told (vw i s1))).
  { rewrite Hb, Hs, Hq, app_assoc, msteps_app, Hms. unfold msteps. cbn [fold_left].
    rewrite Hst, Hvw. auto. }
  assert (Hac : adds i (pre ++ sj_queue s1) = adds i (pre ++ sj_queue s)).
  { rewrite Hq, app_assoc, adds_app. cbn. rewrite Hadd. lia. }
  constructor.
  - rewrite Hms2. auto.
  - rewrite Hms2. auto.
  - pose proof (msteps_end (sj_shut s1 i) i (pre ++ sj_queue s1) (base i s1 k)) as X.
    rewrite Hms2 in X. cbn in X. rewrite <- X. auto.
  - rewrite Hvw. auto.
  - rewrite Hvw. auto.
  - rewrite Hq, app_assoc, okp_app. split; auto. cbn. auto.
  - rewrite Hac, Ht. auto.
  - intros Hi. rewrite Hac, Ht, Hhi, Hs. destruct j_fresh0 as (X1 & X2 & X3 & X4 & X5); [lia|].
    auto 10.
  - rewrite Hvw. auto.
  - rewrite Hb. auto.
Qed.

(** A call that is recorded and changes only flags and handles. *)
Lemma J_same : forall i s s1 c pre k, J i s pre k ->
  view_step (quits i) i (vw i s) c = vw i s ->
  sj_tbl s1 = sj_tbl s -> sj_shut s1 = sj_shut s -> sj_log s1 = sj_log s ->
  sj_made s1 = sj_made s ++ [c] -> sj_queue s1 = sj_queue s ->
  sj_next_id s1 = sj_next_id s ->
  (sj_taken s1 i = true -> vw_live (vw i s) = false) ->
  (sj_next_id s1 <= i -> sj_taken s1 i = false) ->
  obs_ok s1 (vw_end (vw i s)) ->
  J i s1 pre k.
Proof.
  intros i s s1 c pre k H Hv Ht Hs Hh Hm Hq Hn Htk Htk2 Ho.
  assert (Hvw : vw i s1 = vw i s).
  { unfold vw at 1. rewrite Hm, view_of_app. apply Hv. }
  destruct H.
  assert (Hhi : history s1 i = history s i) by (unfold history; rewrite Hh; auto).
  assert (Hb : base i s1 k = base i s k).
  { unfold base. rewrite Ht, Hs, Hhi. auto. }
  constructor; rewrite ?Hb, ?Hvw, ?Hq, ?Hs, ?Ht, ?Hn, ?Hhi; auto.
  intros X. destruct j_fresh0 as (X1 & X2 & X3 & X4 & X5); auto.
  rewrite Hn in Htk2. auto 10.
Qed.

Lemma setf_eq : forall X (f : nat -> X) t x, setf f t x t = x.
Proof. intros. unfold setf. rewrite Nat.eqb_refl. auto. Qed.
Lemma setf_neq : forall X (f : nat -> X) t x u, u <> t -> setf f t x u = f u.
Proof. intros. unfold setf. apply Nat.eqb_neq in H. rewrite H. auto. Qed.


(** ** Subscribing *)

(** All that [greet] leaves alone. *)
Definition kept s s1 : Prop :=
  sj_next_id s1 = sj_next_id s /\ sj_tbl s1 = sj_tbl s /\ sj_taken s1 = sj_taken s /\
  sj_queue s1 = sj_queue s /\ sj_flag s1 = sj_flag s /\ sj_cmp s1 = sj_cmp s /\
  sj_uns s1 = sj_uns s /\ sj_err s1 = sj_err s /\ sj_made s1 = sj_made s /\
  sj_user s1 = sj_user s /\ sj_store s1 = sj_store s /\ sj_iter s1 = sj_iter s.

Lemma kept_refl : forall s, kept s s.
Proof. repeat split. Qed.

Lemma kept_trans : forall s1 s2 s3, kept s1 s2 -> kept s2 s3 -> kept s1 s3.
Proof.
  intros s1 s2 s3 (A1&A2&A3&A4&A5&A6&A7&A8&A9&A10&A11&A12) (B1&B2&B3&B4&B5&B6&B7&B8&B9&B10&B11&B12).
  repeat split; congruence.
Qed.

Lemma greet_cons : forall s i a r, greet prog s i (a :: r) =
  greet prog (if running s && negb (sj_shut s i) then
      let p := prog i (history s i ++ [SN a]) in
      match fst p with
      | [] => with_event s i (SN a) (snd p)
      | _ => with_halt s HNested
      end
    else s) i r.
Proof. reflexivity. Qed.

Lemma greet_running : forall i r s, running (greet prog s i r) = true -> running s = true.
Proof.
  induction r as [|a r IH]; intros s H; auto.
  rewrite greet_cons in H. apply IH in H. destruct (running s) eqn:X; auto.
  cbn in H. congruence.
Qed.

Lemma greet_spec : forall i r s, running (greet prog s i r) = true ->
  kept s (greet prog s i r) /\
  (history (greet prog s i r) i, negb (sj_shut (greet prog s i r) i)) =
    fold_left (fun (p : list (sev A E) * bool) a => if snd p then (fst p ++ [SN a], negb (quits i (fst p ++ [SN a]))) else p)
      r (history s i, negb (sj_shut s i)) /\
  (forall j, j <> i -> history (greet prog s i r) j = history s j /\
                       sj_shut (greet prog s i r) j = sj_shut s j).
Proof.
  induction r as [|a r IH]; intros s Hr.
  - split; [apply kept_refl|]. split; auto.
  - pose proof (greet_running _ _ _ Hr) as Hrs. rewrite greet_cons in *.
    rewrite Hrs in *. cbn [andb] in *. cbn [fold_left snd fst].
    destruct (sj_shut s i) eqn:Hs; cbn [negb] in *.
    + destruct (IH _ Hr) as (H1 & H2 & H3). rewrite Hs in H2. auto.
    + cbn zeta in *.
      destruct (fst (prog i (history s i ++ [SN a]))) eqn:Hp.
      * destruct (IH _ Hr) as (H1 & H2 & H3). split; [|split].
        -- eapply kept_trans; [|exact H1]. repeat split.
        -- rewrite H2. rewrite history_event, Nat.eqb_refl. unfold quits. cbn.
           destruct (snd (prog i (history s i ++ [SN a]))); cbn; rewrite ?setf_eq, ?Hs; auto.
        -- intros j Hj. destruct (H3 j Hj) as [X1 X2]. rewrite X1, X2, history_event. split.
           ++ replace (i =? j) with false; auto. symmetry. apply Nat.eqb_neq. auto.
           ++ cbn. destruct (snd _); auto. apply setf_neq. auto.
      * apply greet_running in Hr. discriminate.
Qed.

(** What subscriber [i] of the state after a subscribe call looks like. *)
Lemma J_subscribed : forall i s s1 r pre k, J i s pre k ->
  running s = true ->
  s1 = greet prog (with_id (with_made s (KSub r)) (S (sj_next_id s))) (sj_next_id s) r ->
  running s1 = true ->
  kept (with_id (with_made s (KSub r)) (S (sj_next_id s))) s1 /\
  sj_closed s1 = sj_closed s /\
  (i <> sj_next_id s -> history s1 i = history s i /\ sj_shut s1 i = sj_shut s i) /\
  (i = sj_next_id s -> history s1 i = fst (given (quits i) [] r) /\
                       negb (sj_shut s1 i) = snd (given (quits i) [] r)).
Proof.
  intros i s s1 r pre k H Hr -> Hr1.
  destruct (greet_spec _ _ _ Hr1) as (H1 & H2 & H3).
  split; [exact H1|]. split; [|split].
  - destruct H1 as (A1&A2&A3&A4&A5&A6&A7&A8&A9&A10&A11&A12).
    unfold sj_closed. rewrite A5, A6, A7, A8. reflexivity.
  - intros Hi. destruct (H3 i Hi) as [X1 X2]. split; [exact X1|exact X2].
  - intros ->. destruct (j_fresh H) as (F1 & F2 & F3 & F4 & F5); auto.
    change (history (with_id (with_made s (KSub r)) (S (sj_next_id s))) (sj_next_id s))
      with (history s (sj_next_id s)) in H2.
    cbn [sj_shut with_id with_made] in H2. rewrite F3, F5 in H2.
    unfold given. cbn [negb] in H2. rewrite <- H2. auto.
Qed.

Lemma J_reject : forall i s s1 r pre k, J i s pre k -> running s = true ->
  s1 = greet prog (with_id (with_made s (KSub r)) (S (sj_next_id s))) (sj_next_id s) r ->
  running s1 = true -> sj_closed s1 = true ->
  running (reject prog (with_taken s1 (sj_next_id s)) (sj_next_id s)) = true ->
  J i (reject prog (with_taken s1 (sj_next_id s)) (sj_next_id s)) pre k.
Proof.
  intros i s s1 r pre k H Hr Hs1 Hr1 Hc Hr2.
  destruct (@J_subscribed i s s1 r pre k H Hr Hs1 Hr1) as (K & C & N & F).
  rewrite C in Hc. pose proof (closed_iff H) as Hx. rewrite Hc in Hx.
  destruct (vw_end (vw i s)) as [x|] eqn:Hend; [|discriminate]. clear Hx.
  pose proof (j_obs H) as Ho. rewrite Hend in Ho.
  destruct K as (A1&A2&A3&A4&A5&A6&A7&A8&A9&A10&A11&A12). cbn in A1,A2,A3,A4,A5,A6,A7,A8,A9.
  clear Hs1.
  set (n := sj_next_id s) in *.
  set (s2 := reject prog (with_taken s1 n) n) in *.
  assert (Hs2 : s2 = if sj_shut s1 n then with_taken s1 n
                     else with_event (with_taken s1 n) n (last_words x) true).
  { unfold s2, reject in *. change (running (with_taken s1 n)) with (running s1) in *.
    rewrite Hr1 in *. cbn [andb sj_shut with_taken sj_err sj_cmp] in *.
    destruct (sj_shut s1 n); cbn [negb] in *; auto. rewrite A6, A8 in *.
    destruct x as [e| |]; cbn in Ho.
    - rewrite Ho in *. destruct (fst (prog n (history (with_taken s1 n) n ++ [SE e]))); auto. discriminate.
    - destruct Ho as [Ho1 Ho2]. rewrite Ho1, Ho2 in *.
      destruct (fst (prog n (history (with_taken s1 n) n ++ [SC]))); auto. discriminate.
    - destruct Ho as (Ho1 & Ho2 & Ho3). rewrite Ho2, Ho3 in *. auto. }
  assert (Hvw : vw i s2 = view_step (quits i) i (vw i s) (KSub r)).
  { unfold vw. replace (sj_made s2) with (sj_made s ++ [KSub r]); [apply view_of_app|].
    rewrite Hs2. destruct (sj_shut s1 n); cbn; auto. }
  assert (E1 : sj_tbl s2 = sj_tbl s) by (rewrite Hs2; destruct (sj_shut s1 n); cbn; auto).
  assert (E2 : sj_queue s2 = sj_queue s) by (rewrite Hs2; destruct (sj_shut s1 n); cbn; auto).
  assert (E3 : sj_next_id s2 = S n) by (rewrite Hs2; destruct (sj_shut s1 n); cbn; auto).
  assert (E4 : forall y, obs_ok s y -> obs_ok s2 y).
  { rewrite Hs2. intros y. unfold obs_ok. destruct (sj_shut s1 n); cbn;
      rewrite A5, A6, A7, A8; auto. }
  assert (E5 : sj_taken s2 = setf (sj_taken s) n true).
  { rewrite Hs2. destruct (sj_shut s1 n); cbn; rewrite A3; auto. }
  pose proof (j_subs H) as Hsub. fold n in Hsub.
  destruct (Nat.eq_dec i n) as [Hi|Hi].
  - destruct (F Hi) as [F1 F2]. clear N F. subst i.
    destruct (j_fresh H) as (G1 & G2 & G3 & G4 & G5); auto.
    pose proof (@view_fresh A E (quits n) n (sj_made s)) as Hf.
    fold (vw n s) in Hf. destruct Hf as [Hf1 Hf2]; [lia|].
    cbn [view_step] in Hvw. rewrite Hsub, Nat.eqb_refl, Hend, Hf2 in Hvw. cbn zeta in Hvw.
    assert (Hh : history s2 n = vw_told (vw n s2)).
    { rewrite Hvw. cbn [vw_told]. rewrite Hs2, <- F2. destruct (sj_shut s1 n); cbn [negb].
      - exact F1.
      - rewrite history_event, Nat.eqb_refl.
        change (history (with_taken s1 n) n) with (history s1 n). rewrite F1. auto. }
    assert (Hb : base n s2 k = mkMview k false (vw_told (vw n s2))).
    { unfold base. rewrite Hh, E1, G2. auto. }
    destruct H.
    assert (Hm : msteps (sj_shut s2 n) n (base n s2 k) (pre ++ sj_queue s2) =
                 mkMview (k || closes (pre ++ sj_queue s)) false (vw_told (vw n s2))).
    { rewrite Hb, E2. apply msteps_dead. auto. }
    constructor; rewrite ?Hm; rewrite ?E1, ?E2, ?E3; auto.
    + rewrite Hvw. auto.
    + rewrite Hvw. cbn [vw_end]. rewrite Hend in j_end0. auto.
    + rewrite Hvw. auto.
    + rewrite Hvw. cbn [vw_end]. auto.
    + intros; lia.
    + intros _. rewrite Hvw. auto.
    + intros _. rewrite Hb. auto.
  - destruct (N Hi) as [F1 F2]. clear N F.
    assert (Hne : (n =? i) = false) by (apply Nat.eqb_neq; auto).
    cbn [view_step] in Hvw. rewrite Hsub, Hne in Hvw.
    assert (Hh : history s2 i = history s i).
    { rewrite Hs2. destruct (sj_shut s1 n); [exact F1|]. rewrite history_event, Hne. exact F1. }
    assert (Hsh : sj_shut s2 i = sj_shut s i).
    { rewrite Hs2. destruct (sj_shut s1 n); [exact F2|]. cbn. rewrite setf_neq; auto. }
    assert (Hb : base i s2 k = base i s k) by (unfold base; rewrite Hh, Hsh, E1; auto).
    assert (Htk : sj_taken s2 i = sj_taken s i) by (rewrite E5; apply setf_neq; auto).
    destruct H.
    constructor; rewrite ?Hb, ?Hsh, ?E1, ?E2, ?E3, ?Hh, ?Htk; rewrite ?Hvw; cbn [vw_live vw_told vw_end vw_subs]; auto.
    intros X. apply j_fresh0. lia.
Qed.

Lemma J_add : forall i s s1 r pre k, J i s pre k -> running s = true ->
  s1 = greet prog (with_id (with_made s (KSub r)) (S (sj_next_id s))) (sj_next_id s) r ->
  running s1 = true -> sj_closed s1 = false ->
  J i (mdefer s1 (MAdd (sj_next_id s))) pre k.
Proof.
  intros i s s1 r pre k H Hr Hs1 Hr1 Hc.
  destruct (@J_subscribed i s s1 r pre k H Hr Hs1 Hr1) as (K & C & N & F).
  rewrite C in Hc. pose proof (closed_iff H) as Hx. rewrite Hc in Hx.
  destruct (vw_end (vw i s)) as [x|] eqn:Hend; [discriminate|]. clear Hx.
  pose proof (j_obs H) as Ho. rewrite Hend in Ho. cbn in Ho. destruct Ho as (O1 & O2 & O3 & O4).
  destruct K as (A1&A2&A3&A4&A5&A6&A7&A8&A9&A10&A11&A12). cbn in A1,A2,A3,A4,A5,A6,A7,A8,A9.
  clear Hs1.
  set (n := sj_next_id s) in *.
  unfold mdefer. rewrite A5, O4. cbn [andb].
  set (s2 := with_queue s1 (sj_queue s1 ++ [MAdd n])).
  pose proof (j_subs H) as Hsub. fold n in Hsub.
  destruct (Nat.eq_dec i n) as [Hi|Hi].
  - destruct (F Hi) as [F1 F2]. clear N F. subst i.
    destruct (j_fresh H) as (G1 & G2 & G3 & G4 & G5); auto.
    assert (Hvw : vw n s2 = view_step (quits n) n (vw n s) (KSub r)).
    { unfold vw. cbn [sj_made s2 with_queue]. rewrite A9. apply view_of_app. }
    pose proof (@view_fresh A E (quits n) n (sj_made s)) as Hf.
    fold (vw n s) in Hf. destruct Hf as [Hf1 Hf2]; [lia|].
    cbn [view_step] in Hvw. rewrite Hsub, Nat.eqb_refl, Hend, Hf2 in Hvw. cbn zeta in Hvw.
    assert (E2 : sj_queue s2 = sj_queue s ++ [MAdd n]) by (cbn; rewrite A4; auto).
    assert (Hb : base n s2 k = mkMview k false (fst (given (quits n) [] r))).
    { unfold base. cbn [sj_tbl s2 with_queue]. rewrite A2, G2. cbn. f_equal. exact F1. }
    assert (Hsh : sj_shut s2 n = negb (snd (given (quits n) [] r))).
    { cbn. rewrite <- F2, negb_involutive. auto. }
    assert (Hac : adds n (pre ++ sj_queue s2) = 1).
    { rewrite E2, app_assoc, adds_app, G1. cbn. rewrite Nat.eqb_refl. auto. }
    pose proof (j_end H) as He. rewrite Hend in He.
    assert (Hm : msteps (sj_shut s2 n) n (base n s2 k) (pre ++ sj_queue s2) =
                 mkMview false (vw_live (vw n s2)) (vw_told (vw n s2))).
    { rewrite Hb, E2, app_assoc, msteps_app. rewrite msteps_dead by auto. rewrite He.
      unfold msteps. cbn [fold_left]. unfold mstep. cbn [mv_end mv_told].
      rewrite Nat.eqb_refl, Hsh, negb_involutive, Hvw. auto. }
    destruct H.
    constructor; rewrite ?Hm; auto.
    + pose proof (msteps_end (sj_shut s2 n) n (pre ++ sj_queue s2) (base n s2 k)) as X.
      rewrite Hm in X. cbn [mv_end base] in X. rewrite <- X, Hvw. auto.
    + rewrite Hvw. cbn. auto.
    + rewrite Hvw. cbn [vw_end]. cbn. rewrite A5, A6, A7, A8. auto.
    + rewrite E2, app_assoc, okp_app. split; auto. rewrite He. cbn. split; auto. discriminate.
    + rewrite Hac. cbn [sj_tbl s2 with_queue]. rewrite A2, G2. auto.
    + intros X. cbn in X. lia.
    + cbn [sj_taken s2 with_queue]. rewrite A3, G4. discriminate.
    + intros _. rewrite Hb. auto.
  - destruct (N Hi) as [F1 F2]. clear N F.
    assert (Hne : (n =? i) = false) by (apply Nat.eqb_neq; auto).
    eapply J_push with (m := MAdd n) (c := KSub r); eauto;
      cbn [view_step]; rewrite ?Hsub, ?Hne; cbn [vw_subs vw_live vw_end vw_told];
      rewrite ?Hend; auto.
    + cbn. rewrite A4. auto.
    + cbn. rewrite A1. fold n. lia.
    + cbn. rewrite A3. apply (j_taken H).
    + cbn. rewrite A1, A3. intros X. apply (j_fresh H). fold n. lia.
    + cbn. rewrite A5, A6, A7, A8. auto.
    + unfold mstep. cbn. rewrite Hne. auto.
Qed.

Lemma shut_dead : forall i s pre k, J i s pre k -> sj_shut s i = true ->
  vw_live (vw i s) = false.
Proof.
  intros i s pre k H Hs. rewrite <- (j_live H). unfold base. rewrite Hs, andb_false_r.
  rewrite msteps_dead; auto.
Qed.

Lemma finish_ended : forall (v : view A E) x, vw_end v <> None -> finish v x = v.
Proof. intros v x H. unfold finish. destruct (vw_end v); congruence. Qed.

Lemma J_inner : forall i me s c pre k, J i s pre k -> running s = true ->
  running (inner_call prog me s c) = true ->
  J i (inner_call prog me s c) pre k.
Proof.
  intros i me s c pre k H Hr Hr'. unfold inner_call in *. rewrite Hr in *.
  pose proof (closed_iff H) as Hc.
  pose proof (j_obs H) as Ho.
  pose proof (j_subs H) as Hsub.
  assert (Hdead : vw_end (vw i s) <> None -> vw_live (vw i s) = false) by (apply view_ended).
  assert (Hfl : sj_flag s = true -> vw_end (vw i s) <> None).
  { intros Hf X. rewrite X in Ho. cbn in Ho. destruct Ho as (_ & _ & _ & Y). congruence. }
  assert (Htk : sj_taken s i = true -> vw_live (vw i s) = false) by apply (j_taken H).
  assert (Htk2 : sj_next_id s <= i -> sj_taken s i = false) by (intros; apply (j_fresh H); auto).
  assert (Hfresh : sj_next_id s <= i -> vw_live (vw i s) = false).
  { intros X. apply (@view_fresh A E (quits i) i (sj_made s)). fold (vw i s). lia. }
  destruct c as [a|e| | |r|j]; cbn zeta in *.
  - (* next *)
    change (sj_closed (with_made s (KNext a))) with (sj_closed s) in *.
    destruct (sj_closed s) eqn:Hcl.
    + apply J_ignored; auto. cbn. rewrite Hdead; auto. intros X. rewrite X in Hc. discriminate.
    + destruct (vw_end (vw i s)) eqn:Hend; [discriminate|].
      cbn in Ho. destruct Ho as (O1 & O2 & O3 & O4).
      unfold mdefer. cbn [sj_flag with_made andb]. rewrite O4. cbn [andb].
      eapply J_push with (c := KNext a); eauto; cbn; auto; try (rewrite Hend; cbn).
      * destruct (vw_live (vw i s)); auto.
      * destruct (vw_live (vw i s)) eqn:X; auto. intros Y. apply Htk in Y. discriminate.
      * destruct (vw_live (vw i s)); cbn; try rewrite Hend; cbn; auto.
      * unfold mstep. cbn. destruct (vw_live (vw i s)) eqn:Hl; cbn; rewrite ?Hend, ?Hl; auto.
  - change (sj_closed (with_made s (KErr e))) with (sj_closed s) in *.
    destruct (sj_closed s) eqn:Hcl.
    + apply J_ignored; auto. cbn. apply finish_ended. intros X. rewrite X in Hc. discriminate.
    + destruct (vw_end (vw i s)) eqn:Hend; [discriminate|].
      cbn in Ho. destruct Ho as (O1 & O2 & O3 & O4).
      unfold mdefer. cbn [sj_flag with_made with_obs andb]. rewrite O4. cbn [andb].
      eapply J_push with (c := KErr e); eauto; cbn; unfold finish; rewrite ?Hend; cbn; auto.
  - change (sj_closed (with_made s KCmp)) with (sj_closed s) in *.
    destruct (sj_closed s) eqn:Hcl.
    + apply J_ignored; auto. cbn. apply finish_ended. intros X. rewrite X in Hc. discriminate.
    + destruct (vw_end (vw i s)) eqn:Hend; [discriminate|].
      cbn in Ho. destruct Ho as (O1 & O2 & O3 & O4).
      unfold mdefer. cbn [sj_flag with_made with_obs andb]. rewrite O4. cbn [andb].
      eapply J_push with (c := KCmp); eauto; cbn; unfold finish; rewrite ?Hend; cbn; auto.
  - cbn [sj_uns with_made] in *. destruct (sj_uns s) eqn:Hu.
    + apply J_ignored; auto. cbn. apply finish_ended. intros X. rewrite X in Ho. cbn in Ho.
      destruct Ho as (_ & Y & _). congruence.
    + unfold mdefer. cbn [sj_flag with_made with_obs sj_uns negb andb].
      rewrite andb_true_r. destruct (sj_flag s) eqn:Hf.
      * eapply J_same with (c := KUns); eauto; cbn; auto using finish_ended.
        unfold obs_ok in *. destruct (vw_end (vw i s)) as [[]|]; cbn; auto.
        -- destruct Ho as (Ho1 & _). congruence.
        -- exfalso. apply (Hfl eq_refl). auto.
      * eapply J_push with (c := KUns); eauto; cbn; unfold finish;
          destruct (vw_end (vw i s)) as [[]|] eqn:X; cbn; rewrite ?X; cbn in *; auto;
          try discriminate; try tauto; intuition congruence.
  - change (sj_next_id (with_made s (KSub r))) with (sj_next_id s) in *.
    set (s1 := greet prog _ _ _) in *.
    destruct (sj_closed s1) eqn:Hcl.
    + assert (Hr1 : running s1 = true).
      { unfold reject in Hr'. destruct (running (with_taken s1 (sj_next_id s))) eqn:X; auto. }
      eapply J_reject; eauto. reflexivity.
    + destruct (running s1) eqn:Hr1; [|congruence].
      eapply J_add; eauto. reflexivity.
  - cbn [sj_shut sj_taken sj_next_id with_made] in *.
    destruct (_ || _) eqn:Hskip.
    + apply J_ignored; auto. cbn. destruct (j =? i) eqn:Hji; cbn; auto.
      apply Nat.eqb_eq in Hji. subst j.
      replace (vw_live (vw i s)) with false; auto. symmetry.
      apply orb_true_iff in Hskip. destruct Hskip as [Hskip|Hskip].
      * apply orb_true_iff in Hskip. destruct Hskip as [Hskip|Hskip]; auto.
        apply andb_true_iff in Hskip. eapply shut_dead; eauto. tauto.
      * apply Hfresh. apply negb_true_iff, Nat.ltb_ge in Hskip. auto.
    + apply orb_false_iff in Hskip. destruct Hskip as [_ Hlt].
      apply negb_false_iff, Nat.ltb_lt in Hlt.
      assert (Htk3 : setf (sj_taken s) j true i = true ->
                vw_live (view_step (quits i) i (vw i s) (KOff j)) = false).
      { cbn. destruct (j =? i) eqn:Hji; cbn.
        - destruct (vw_live (vw i s)) eqn:X; auto.
        - rewrite setf_neq; auto. apply Nat.eqb_neq in Hji. auto. }
      assert (Htk4 : sj_next_id s <= i -> setf (sj_taken s) j true i = false).
      { intros. rewrite setf_neq; auto. lia. }
      unfold mdefer. cbn [sj_flag with_made with_taken andb negb]. rewrite andb_true_r.
      destruct (sj_flag s) eqn:Hf.
      * assert (Hv : view_step (quits i) i (vw i s) (KOff j) = vw i s).
        { cbn. rewrite Hdead by auto. rewrite andb_false_r. auto. }
        eapply J_same with (c := KOff j); eauto; cbn; auto.
      * eapply J_push with (m := MOff j) (c := KOff j); eauto.
        -- cbn. destruct (_ && _); auto.
        -- cbn [view_step]. destruct (_ && _); auto.
        -- cbn [view_step]. unfold mstep. cbn.
           destruct (vw_end (vw i s)) as [x|] eqn:X; cbn.
           ++ rewrite Hdead by congruence. rewrite andb_false_r. rewrite X. cbn. rewrite Hdead by congruence. auto.
           ++ destruct ((j =? i) && vw_live (vw i s)); cbn; rewrite ?X; auto.
Qed.


Lemma inner_running : forall me s c, running (inner_call prog me s c) = true -> running s = true.
Proof.
  intros me s c H. unfold inner_call in H. destruct (running s) eqn:X; auto.
  rewrite X in H. discriminate.
Qed.

Lemma inners_running : forall me cs s,
  running (fold_left (inner_call prog me) cs s) = true -> running s = true.
Proof. induction cs; cbn; intros; auto. eauto using inner_running. Qed.

Lemma J_inners : forall i me cs s pre k, J i s pre k ->
  running (fold_left (inner_call prog me) cs s) = true ->
  J i (fold_left (inner_call prog me) cs s) pre k.
Proof.
  induction cs as [|c cs IH]; cbn; intros s pre k H Hr; auto.
  pose proof (inners_running _ _ _ Hr) as Hr1.
  apply IH; auto. apply J_inner; auto. eapply inner_running; eauto.
Qed.

Definition frame s s1 : Prop := sj_tbl s1 = sj_tbl s /\ sj_flag s1 = sj_flag s.

Lemma mdefer_frame : forall s m, frame s (mdefer s m).
Proof. intros. unfold mdefer, frame. destruct (_ && _); auto. Qed.

Lemma frame_trans : forall s1 s2 s3, frame s1 s2 -> frame s2 s3 -> frame s1 s3.
Proof. unfold frame. intros s1 s2 s3 [H1 H2] [H3 H4]. split; congruence. Qed.

Lemma greet_frame : forall i r s, frame s (greet prog s i r).
Proof.
  induction r as [|a r IH]; intros s; [split; auto|]. rewrite greet_cons.
  eapply frame_trans; [|apply IH].
  destruct (running s && negb (sj_shut s i)); [|split; auto]. cbn zeta.
  destruct (fst (prog i (history s i ++ [SN a]))); split; auto.
Qed.

Lemma reject_frame : forall i s, frame s (reject prog s i).
Proof.
  intros i s. unfold reject. destruct (_ && _); [|split; auto]. cbn zeta.
  destruct (sj_err s); [destruct (fst (prog i (history s i ++ [SE e]))); split; auto|].
  destruct (sj_cmp s); [|split; auto].
  destruct (fst (prog i (history s i ++ [SC]))); split; auto.
Qed.

Lemma inner_frame : forall me s c, frame s (inner_call prog me s c).
Proof.
  intros me s c. unfold inner_call. destruct (running s); [|split; auto].
  destruct c; cbn zeta.
  - destruct (sj_closed _); [split; auto|]. destruct (mdefer_frame (with_made s (KNext a)) (MNext a)); split; auto.
  - destruct (sj_closed _); [split; auto|]. destruct (mdefer_frame (with_obs (with_made s (KErr e)) (sj_cmp (with_made s (KErr e))) (sj_uns (with_made s (KErr e))) (Some e)) (MErr e)); split; auto.
  - destruct (sj_closed _); [split; auto|]. destruct (mdefer_frame (with_obs (with_made s KCmp) true (sj_uns (with_made s KCmp)) (sj_err (with_made s KCmp))) MCmp); split; auto.
  - destruct (sj_uns _); [split; auto|]. destruct (mdefer_frame (with_obs (with_made s KUns) (sj_cmp (with_made s KUns)) true (sj_err (with_made s KUns))) MUns); split; auto.
  - set (s1 := greet prog _ _ _).
    assert (F : frame s s1).
    { eapply frame_trans; [|apply greet_frame]. split; auto. }
    destruct (sj_closed s1).
    + eapply frame_trans; [exact F|]. eapply frame_trans; [|apply reject_frame]. split; auto.
    + destruct (running s1); auto. eapply frame_trans; [exact F|]. apply mdefer_frame.
  - destruct (_ || _); [split; auto|].
    destruct (mdefer_frame (with_taken (with_made s (KOff i)) i) (MOff i)); split; auto.
Qed.

Lemma inners_frame : forall me cs s, frame s (fold_left (inner_call prog me) cs s).
Proof.
  induction cs as [|c cs IH]; cbn; intros s; [split; auto|].
  destruct (IH (inner_call prog me s c)) as [H1 H2].
  destruct (inner_frame me s c) as [H3 H4]. split; congruence.
Qed.

Lemma user_running : forall me s u, running (inner_user prog P me s u) = true -> running s = true.
Proof.
  intros me s u H. unfold inner_user in H. destruct (running s) eqn:X; auto. congruence.
Qed.

Lemma users_running : forall me us s,
  running (fold_left (inner_user prog P me) us s) = true -> running s = true.
Proof. induction us; cbn; intros; auto. eauto using user_running. Qed.

Lemma user_frame : forall me s u, frame s (inner_user prog P me s u).
Proof.
  intros me s u. unfold inner_user. destruct (running s); [|split; auto].
  eapply frame_trans; [|apply inners_frame]. split; auto.
Qed.

Lemma users_frame : forall me us s, frame s (fold_left (inner_user prog P me) us s).
Proof.
  induction us as [|u us IH]; cbn; intros s; [split; auto|].
  eapply frame_trans; [apply user_frame|apply IH].
Qed.

Lemma J_user : forall i me s u pre k, J i s pre k ->
  running (inner_user prog P me s u) = true -> J i (inner_user prog P me s u) pre k.
Proof.
  intros i me s u pre k H Hr. unfold inner_user in *. destruct (running s) eqn:X; auto.
  apply J_inners; auto. destruct H. constructor; auto.
Qed.

Lemma J_users : forall i me us s pre k, J i s pre k ->
  running (fold_left (inner_user prog P me) us s) = true ->
  J i (fold_left (inner_user prog P me) us s) pre k.
Proof.
  induction us as [|u us IH]; cbn; intros s pre k H Hr; auto.
  apply IH; auto. apply J_user; auto. eapply users_running; eauto.
Qed.

Lemma tell_frame : forall s i e, frame s (tell prog P s i e).
Proof.
  intros. unfold tell. destruct (_ && _); [|split; auto].
  destruct (users_frame i (fst (prog i (history s i ++ [e]))) (with_event s i e (ends e || snd (prog i (history s i ++ [e]))))) as [H1 H2].
  split; auto.
Qed.

Lemma tell_running : forall s i e, running (tell prog P s i e) = true -> running s = true.
Proof.
  intros s i e. unfold tell. destruct (running s && negb (sj_shut s i)) eqn:X.
  - apply andb_true_iff in X. tauto.
  - auto.
Qed.

Lemma J_event_other : forall i j s e c pre k, i <> j -> J i s pre k ->
  J i (with_event s j e c) pre k.
Proof.
  intros i j s e c pre k Hij H.
  assert (Hh : history (with_event s j e c) i = history s i).
  { rewrite history_event. destruct (j =? i) eqn:X; auto. apply Nat.eqb_eq in X. congruence. }
  assert (Hs : sj_shut (with_event s j e c) i = sj_shut s i).
  { cbn. destruct c; auto. apply setf_neq. auto. }
  assert (Hb : base i (with_event s j e c) k = base i s k).
  { unfold base. rewrite Hh, Hs. auto. }
  assert (Hv : vw i (with_event s j e c) = vw i s) by reflexivity.
  destruct H. constructor; rewrite ?Hb, ?Hv, ?Hs, ?Hh; auto.
Qed.

Lemma J_tell_other : forall i j s e pre k, i <> j -> J i s pre k ->
  running (tell prog P s j e) = true -> J i (tell prog P s j e) pre k.
Proof.
  intros i j s e pre k Hij H Hr. unfold tell in *. destruct (_ && _); auto.
  apply J_users; auto. apply J_event_other; auto.
Qed.

Lemma J_event_self : forall i s m e c T pre, J i s (m :: pre) false ->
  inb i (sj_tbl s) = true -> sj_shut s i = false ->
  mstep (sj_shut s i) i (base i s false) m = mkMview (mclosing m) (negb c) (history s i ++ [e]) ->
  (mclosing m = true -> c = true) ->
  (c = false -> inb i T = true) ->
  J i (with_event (with_tbl s T) i e c) pre (mclosing m).
Proof.
  intros i s m e c T pre H Ht Hs Hst Hc HT.
  set (s1 := with_event _ _ _ _).
  assert (Hh : history s1 i = history s i ++ [e]).
  { unfold s1. rewrite history_event, Nat.eqb_refl. auto. }
  assert (Hb : base i s1 (mclosing m) = mstep (sj_shut s i) i (base i s false) m).
  { rewrite Hst. unfold base. rewrite Hh. f_equal.
    unfold s1; cbn. destruct c; cbn.
    - rewrite setf_eq, andb_false_r. auto.
    - rewrite HT by auto. rewrite Hs. auto. }
  assert (Hv : vw i s1 = vw i s) by reflexivity.
  assert (Hq : sj_queue s1 = sj_queue s) by reflexivity.
  assert (Ha : adds i (m :: pre ++ sj_queue s) = 0).
  { pose proof (j_once H) as X. rewrite Ht in X. cbn [app] in X. lia. }
  cbn in Ha.
  assert (Hi : ~ sj_next_id s <= i).
  { intros X. apply (j_fresh H) in X. destruct X as (_ & X & _). congruence. }
  assert (Hsh : forall v, msteps (sj_shut s1 i) i v (pre ++ sj_queue s) =
                          msteps (sj_shut s i) i v (pre ++ sj_queue s)).
  { intros v. apply msteps_sh. lia. }
  destruct H. cbn [app closes okp adds] in *.
  constructor; rewrite ?Hq, ?Hsh, ?Hb, ?Hv; auto.
  - tauto.
  - destruct (inb i (sj_tbl s1)); lia.
  - intros X. contradiction.
  - intros X. rewrite Hst. cbn. rewrite Hc; auto.
Qed.

Lemma with_tbl_same : forall s, with_tbl s (sj_tbl s) = s.
Proof. destruct s; reflexivity. Qed.

Definition of_mnot (m : mnot A E) : option (sev A E) :=
  match m with
  | MNext a => Some (SN a) | MErr e => Some (SE e) | MCmp => Some SC | MUns => Some SU
  | _ => None
  end.

Lemma J_tell_self : forall i s m e pre k, J i s (m :: pre) k ->
  inb i (sj_tbl s) = true -> of_mnot m = Some e ->
  running (tell prog P s i e) = true -> J i (tell prog P s i e) pre (k || mclosing m).
Proof.
  intros i s m e pre k H Ht Hm Hr.
  assert (Hna : is_add i m = false) by (destruct m; cbn in *; auto; discriminate).
  pose proof (tell_running _ _ _ Hr) as Hrs.
  unfold tell in *. rewrite Hrs in *. cbn [andb] in *.
  destruct (sj_shut s i) eqn:Hs; cbn [negb] in *.
  - apply J_skip; auto. unfold base. cbn. rewrite Hs, andb_false_r. auto.
  - destruct k.
    + pose proof (j_k H eq_refl) as X. unfold base in X. cbn in X. rewrite Ht, Hs in X. discriminate.
    + apply J_users; auto. cbn [orb].
      replace (with_event s i e (ends e || snd (prog i (history s i ++ [e]))))
        with (with_event (with_tbl s (sj_tbl s)) i e (ends e || snd (prog i (history s i ++ [e]))))
        by (rewrite with_tbl_same; auto).
      apply J_event_self; auto.
      * unfold base. rewrite Ht, Hs. destruct m; cbn in Hm; inversion Hm; subst; reflexivity.
      * destruct m; cbn in Hm |- *; inversion Hm; subst; auto; discriminate.
Qed.

Lemma tells_running : forall e l s,
  running (fold_left (fun s i => tell prog P s i e) l s) = true -> running s = true.
Proof. induction l; cbn; intros; auto. eauto using tell_running. Qed.

Lemma tells_frame : forall e l s, frame s (fold_left (fun s i => tell prog P s i e) l s).
Proof.
  induction l as [|i l IH]; cbn; intros s; [split; auto|].
  destruct (IH (tell prog P s i e)) as [H1 H2]. destruct (tell_frame s i e) as [H3 H4].
  split; congruence.
Qed.

Lemma J_tells : forall m e l s rest k, of_mnot m = Some e -> NoDup l ->
  (forall i, In i l -> inb i (sj_tbl s) = true) ->
  (forall i, In i l -> J i s (m :: rest) k) ->
  (forall i, ~ In i l -> J i s rest (k || mclosing m)) ->
  running (fold_left (fun s i => tell prog P s i e) l s) = true ->
  forall i, J i (fold_left (fun s i => tell prog P s i e) l s) rest (k || mclosing m).
Proof.
  intros m e l. induction l as [|j l IH]; intros s rest k Hm Hn Ht Hin Hout Hr i; cbn in *.
  - apply Hout. tauto.
  - inversion Hn as [|x y Hnj Hnl]; subst.
    pose proof (tells_running _ _ _ Hr) as Hr1.
    destruct (tell_frame s j e) as [Hf1 Hf2].
    apply IH; auto.
    + intros i' Hi'. rewrite Hf1. auto.
    + intros i' Hi'. apply J_tell_other; auto. intros ->. contradiction.
    + intros i' Hi'. destruct (Nat.eq_dec i' j) as [->|Hne].
      * apply J_tell_self; auto.
      * apply J_tell_other; auto. apply Hout. intros [X|X]; auto.
Qed.

Lemma J_frame : forall i s s1 pre k, J i s pre k ->
  sj_next_id s1 = sj_next_id s -> (forall j, inb j (sj_tbl s1) = inb j (sj_tbl s)) ->
  sj_shut s1 = sj_shut s -> sj_taken s1 = sj_taken s -> sj_queue s1 = sj_queue s ->
  sj_flag s1 = sj_flag s -> sj_cmp s1 = sj_cmp s -> sj_uns s1 = sj_uns s ->
  sj_err s1 = sj_err s -> sj_made s1 = sj_made s -> sj_log s1 = sj_log s ->
  J i s1 pre k.
Proof.
  intros i s s1 pre k H E1 E2 E3 E4 E5 E6 E7 E8 E9 E10 E11.
  assert (Hh : history s1 i = history s i) by (unfold history; rewrite E11; auto).
  assert (Hb : base i s1 k = base i s k) by (unfold base; rewrite E2, E3, Hh; auto).
  assert (Hv : vw i s1 = vw i s) by (unfold vw; rewrite E10; auto).
  destruct H. constructor; rewrite ?Hb, ?Hv, ?E5, ?E3, ?E4, ?E2, ?E1, ?Hh; auto.
  unfold obs_ok in *. rewrite E6, E7, E8, E9. auto.
Qed.

Lemma broadcast_frame : forall s e, frame s (broadcast prog ord P s e).
Proof.
  intros. unfold broadcast.
  destruct (tells_frame e (ord (sj_iter s) (sj_tbl s)) (with_iter s)) as [H1 H2]. split; auto.
Qed.

Lemma broadcast_running : forall s e, running (broadcast prog ord P s e) = true -> running s = true.
Proof. intros s e H. unfold broadcast in H. apply tells_running in H. auto. Qed.

Lemma J_broadcast : forall s m e rest k, of_mnot m = Some e -> NoDup (sj_tbl s) ->
  (forall i, J i s (m :: rest) k) ->
  running (broadcast prog ord P s e) = true ->
  forall i, J i (broadcast prog ord P s e) rest (k || mclosing m).
Proof.
  intros s m e rest k Hm Hn H Hr. unfold broadcast in *.
  pose proof (ord_perm (sj_iter s) (sj_tbl s)) as Hp.
  assert (HW : forall i, J i (with_iter s) (m :: rest) k) by (intros; eapply J_frame; eauto).
  apply J_tells; auto.
  - eapply Permutation_NoDup; eauto.
  - intros i Hi. apply inb_In. eapply Permutation_in; [apply Permutation_sym|]; eauto.
  - intros i Hi. apply J_skip; auto.
    + unfold base. cbn. replace (inb i (sj_tbl s)) with false; auto. symmetry.
      destruct (inb i (sj_tbl s)) eqn:X; auto. apply inb_In in X.
      exfalso. apply Hi. eapply Permutation_in; eauto.
    + destruct m; cbn in *; auto; discriminate.
Qed.

(** Forgetting subscribers that are not listening changes nothing. *)
Lemma J_drop : forall i s T pre k, J i s pre k ->
  (inb i T = true -> inb i (sj_tbl s) = true) ->
  inb i T && negb (sj_shut s i) = inb i (sj_tbl s) && negb (sj_shut s i) ->
  J i (with_tbl s T) pre k.
Proof.
  intros i s T pre k H HT Hl.
  assert (Hb : base i (with_tbl s T) k = base i s k) by (unfold base; cbn; rewrite Hl; auto).
  assert (Hv : vw i (with_tbl s T) = vw i s) by reflexivity.
  destruct H. constructor; rewrite ?Hb, ?Hv; cbn [sj_queue with_tbl sj_tbl sj_shut sj_next_id sj_taken]; auto.
  - destruct (inb i T); [rewrite HT in j_once0 by auto|]; lia.
  - intros X. apply j_fresh0 in X. destruct X as (X1 & X2 & X3).
    split; auto. split; auto. destruct (inb i T); auto. rewrite HT in X2; auto.
Qed.

Lemma inb_remove : forall i j l, inb i (remove_id j l) = inb i l && negb (Nat.eqb i j).
Proof.
  unfold inb. induction l as [|x l IH]; cbn; auto.
  destruct (x =? j) eqn:Hx.
  - rewrite IH. apply Nat.eqb_eq in Hx. subst.
    destruct (i =? j); cbn; auto; rewrite ?andb_false_r, ?andb_true_r; auto.
  - cbn. rewrite IH. destruct (i =? x) eqn:Hi; cbn; auto.
    apply Nat.eqb_eq in Hi. subst. rewrite Hx. auto.
Qed.

Lemma remove_NoDup : forall j l, NoDup l -> NoDup (remove_id j l).
Proof.
  induction l as [|x l IH]; cbn; intros H; auto. inversion H; subst.
  destruct (x =? j) eqn:Hx; auto. constructor; auto.
  rewrite <- inb_In, inb_remove, andb_true_iff. intros [X _]. apply inb_In in X. contradiction.
Qed.

Lemma mapply_running : forall s m, running (mapply prog ord P s m) = true -> running s = true.
Proof.
  intros s m H. destruct m; cbn in H; auto; eauto using broadcast_running.
  - apply broadcast_running in H. auto.
  - destruct (existsb _ _); auto. apply tell_running in H. auto.
Qed.

Lemma J_mapply : forall s m rest k, NoDup (sj_tbl s) ->
  (forall i, J i s (m :: rest) k) -> (forall i, m <> MAdd i) ->
  running (mapply prog ord P s m) = true ->
  (forall i, J i (mapply prog ord P s m) rest (k || mclosing m)) /\
  NoDup (sj_tbl (mapply prog ord P s m)) /\ sj_flag (mapply prog ord P s m) = sj_flag s.
Proof.
  intros s m rest k Hn H Hna Hr.
  assert (HB : forall e, of_mnot m = Some e -> running (broadcast prog ord P s e) = true ->
    (forall i, J i (broadcast prog ord P s e) rest (k || mclosing m)) /\
    NoDup (sj_tbl (broadcast prog ord P s e)) /\ sj_flag (broadcast prog ord P s e) = sj_flag s).
  { intros e He Hre. split; [apply J_broadcast; auto|].
    destruct (broadcast_frame s e) as [-> ->]. auto. }
  destruct m as [a|e| | |j|j]; cbn [mapply] in *; auto.
  - destruct (HB SU eq_refl Hr) as (H1 & H2 & H3). split; [|split; [constructor|auto]].
    intros i. apply J_drop; auto; [discriminate|]. change (inb i []) with false. cbn [andb].
    pose proof (j_k (H1 i)) as X. cbn [base mv_live] in X. rewrite orb_true_r in X. symmetry. auto.
  - cbn [mclosing is_unsub is_terminal orb] in *. rewrite orb_false_r.
    destruct (existsb (Nat.eqb j) (sj_tbl s)) eqn:Hin.
    + fold (inb j (sj_tbl s)) in Hin.
      set (s1 := with_tbl s (remove_id j (sj_tbl s))) in *.
      destruct (tell_frame s1 j SU) as [F1 F2]. rewrite F1, F2.
      split; [|split; [apply remove_NoDup; auto|auto]].
      intros i. destruct (Nat.eq_dec i j) as [->|Hne].
      * pose proof (tell_running _ _ _ Hr) as Hrs.
        unfold tell in *. rewrite Hrs in *. cbn [andb] in *.
        change (sj_shut s1 j) with (sj_shut s j) in *.
        destruct (sj_shut s j) eqn:Hs; cbn [negb] in *.
        -- rewrite <- (orb_false_r k). apply J_skip with (m := MOff j); auto.
           ++ apply J_drop; auto.
              rewrite Hs, !andb_false_r. auto.
           ++ unfold base. cbn. rewrite Hs, andb_false_r. auto.
        -- destruct k.
           ++ pose proof (j_k (H j) eq_refl) as X. unfold base in X. cbn in X. rewrite Hin, Hs in X. discriminate.
           ++ apply J_users; auto. cbn [ends orb]. unfold s1.
              apply (@J_event_self j s (MOff j) SU true (remove_id j (sj_tbl s)) rest (H j)); auto.
              ** unfold base. rewrite Hin, Hs. unfold mstep. cbn. rewrite Nat.eqb_refl. reflexivity.
              ** discriminate.
      * assert (Hne' : (j =? i) = false) by (apply Nat.eqb_neq; auto).
        apply J_tell_other; auto. apply J_noop with (m := MOff j); auto.
        -- apply J_drop; auto.
           ++ rewrite inb_remove. intros X. apply andb_true_iff in X. tauto.
           ++ rewrite inb_remove, Nat.eqb_sym, Hne', andb_true_r. auto.
        -- unfold mstep. rewrite Hne'. cbn. destruct k; auto.
    + split; [|auto]. intros i. apply J_noop with (m := MOff j); auto.
      fold (inb j (sj_tbl s)) in Hin.
      unfold mstep, base. cbn. destruct (j =? i) eqn:Hji; [|destruct k; auto].
      apply Nat.eqb_eq in Hji. subst j. rewrite Hin. cbn. destruct k; auto.
  - exfalso. eapply Hna; eauto.
Qed.


(** ** The calls made are those of the users *)

(** Every call of a user is exactly one call on the publish subject. *)
Definition single : Prop := forall x c e u, exists k, po_calls P x c e u = [k].

(** [owed]: calls still to be made for the last call of a user. *)
Definition X s (owed : list (cmd A E)) : Prop :=
  single -> expand P (sj_user s) = (sj_store s, sj_made s ++ owed).

Lemma X_same : forall s s1 o, X s o -> sj_user s1 = sj_user s -> sj_store s1 = sj_store s ->
  sj_made s1 = sj_made s -> X s1 o.
Proof. unfold X. intros s s1 o H H1 H2 H3 Hs. rewrite H1, H2, H3. auto. Qed.

Lemma mdefer_same : forall s m, sj_user (mdefer s m) = sj_user s /\
  sj_store (mdefer s m) = sj_store s /\ sj_made (mdefer s m) = sj_made s.
Proof. intros. unfold mdefer. destruct (_ && _); auto. Qed.

Lemma greet_same : forall i r s, sj_user (greet prog s i r) = sj_user s /\
  sj_store (greet prog s i r) = sj_store s /\ sj_made (greet prog s i r) = sj_made s.
Proof.
  induction r as [|a r IH]; intros s; auto. rewrite greet_cons.
  destruct (IH (if running s && negb (sj_shut s i) then
      let p := prog i (history s i ++ [SN a]) in
      match fst p with
      | [] => with_event s i (SN a) (snd p)
      | _ => with_halt s HNested
      end
    else s)) as (-> & -> & ->).
  destruct (running s && negb (sj_shut s i)); auto. cbn zeta.
  destruct (fst (prog i (history s i ++ [SN a]))); auto.
Qed.

Lemma reject_same : forall i s, sj_user (reject prog s i) = sj_user s /\
  sj_store (reject prog s i) = sj_store s /\ sj_made (reject prog s i) = sj_made s.
Proof.
  intros i s. unfold reject. destruct (_ && _); auto. cbn zeta.
  destruct (sj_err s); [destruct (fst (prog i (history s i ++ [SE e]))); auto|].
  destruct (sj_cmp s); auto. destruct (fst (prog i (history s i ++ [SC]))); auto.
Qed.

Lemma inner_made : forall me s c, running s = true ->
  sj_user (inner_call prog me s c) = sj_user s /\
  sj_store (inner_call prog me s c) = sj_store s /\
  sj_made (inner_call prog me s c) = sj_made s ++ [c].
Proof.
  intros me s c Hr. unfold inner_call. rewrite Hr. destruct c; cbn zeta.
  - destruct (sj_closed _); auto. destruct (mdefer_same (with_made s (KNext a)) (MNext a)) as (-> & -> & ->). auto.
  - destruct (sj_closed _); auto.
    match goal with |- context [mdefer ?x ?y] => destruct (mdefer_same x y) as (-> & -> & ->) end. auto.
  - destruct (sj_closed _); auto.
    match goal with |- context [mdefer ?x ?y] => destruct (mdefer_same x y) as (-> & -> & ->) end. auto.
  - destruct (sj_uns _); auto.
    match goal with |- context [mdefer ?x ?y] => destruct (mdefer_same x y) as (-> & -> & ->) end. auto.
  - destruct (greet_same (sj_next_id (with_made s (KSub r))) r
      (with_id (with_made s (KSub r)) (S (sj_next_id (with_made s (KSub r)))))) as (H1 & H2 & H3).
    set (s1 := greet prog _ _ _) in *. destruct (sj_closed s1).
    + destruct (reject_same (sj_next_id (with_made s (KSub r)))
        (with_taken s1 (sj_next_id (with_made s (KSub r))))) as (-> & -> & ->). auto.
    + destruct (running s1); auto.
      destruct (mdefer_same s1 (MAdd (sj_next_id (with_made s (KSub r))))) as (-> & -> & ->). auto.
  - destruct (_ || _); auto.
    match goal with |- context [mdefer ?x ?y] => destruct (mdefer_same x y) as (-> & -> & ->) end. auto.
Qed.

Lemma X_inner : forall me s c o, X s (c :: o) -> running s = true -> X (inner_call prog me s c) o.
Proof.
  unfold X. intros me s c o H Hr Hs. destruct (inner_made me s c Hr) as (-> & -> & ->).
  rewrite <- app_assoc. apply H. auto.
Qed.

Lemma X_inners : forall me cs s, X s cs -> running (fold_left (inner_call prog me) cs s) = true ->
  X (fold_left (inner_call prog me) cs s) [].
Proof.
  induction cs as [|c cs IH]; cbn; intros s H Hr; auto.
  pose proof (inners_running _ _ _ Hr) as Hr1.
  apply IH; auto. apply X_inner; auto. eapply inner_running; eauto.
Qed.

Lemma view_end : forall q i (cs : list (cmd A E)), vw_end (view_of q i cs) = first_end cs.
Proof.
  intros q i cs. induction cs as [|c cs IH] using rev_ind; auto.
  rewrite view_of_app. unfold first_end in *. rewrite fold_left_app. cbn [fold_left].
  rewrite <- IH. destruct (view_of q i cs) as [n x l t]. cbn.
  destruct c; cbn; unfold finish; cbn.
  - destruct l, x; auto.
  - destruct x; auto.
  - destruct x; auto.
  - destruct x; auto.
  - destruct (n =? i), x; auto.
  - destruct (i0 =? i), l, x; auto.
Qed.

Lemma X_with_user : forall i s u pre k, J i s pre k -> X s [] ->
  let x := po_keep P (sj_store s) u in
  X (with_user s x u) (po_calls P x (sj_closed s) (some (sj_err s)) u).
Proof.
  intros i s u pre k H HX x Hs. cbn. unfold expand. rewrite fold_left_app. cbn [fold_left].
  fold (expand P (sj_user s)). rewrite (HX Hs). unfold expand_step. cbn [fst snd].
  rewrite app_nil_r. fold x. pose proof (closed_iff H) as Hc. pose proof (j_obs H) as Ho.
  unfold vw in *. rewrite view_end in *. unfold finished, failed. rewrite Hc.
  replace (some (sj_err s)) with (match first_end (sj_made s) with Some (EndErr _) => true | _ => false end); auto.
  unfold obs_ok in Ho. destruct (first_end (sj_made s)) as [[e| |]|].
  - rewrite Ho. auto.
  - destruct Ho as [_ ->]. auto.
  - destruct Ho as (_ & _ & ->). auto.
  - destruct Ho as (_ & _ & -> & _). auto.
Qed.

Lemma X_user : forall i me s u pre k, J i s pre k -> X s [] ->
  running (inner_user prog P me s u) = true -> X (inner_user prog P me s u) [].
Proof.
  intros i me s u pre k H HX Hr. unfold inner_user in *. destruct (running s) eqn:Hrs; auto.
  apply X_inners; auto. apply (@X_with_user i s u pre k H HX).
Qed.

Lemma X_users : forall i me us s pre k, J i s pre k -> X s [] ->
  running (fold_left (inner_user prog P me) us s) = true ->
  X (fold_left (inner_user prog P me) us s) [].
Proof.
  induction us as [|u us IH]; cbn; intros s pre k H HX Hr; auto.
  pose proof (users_running _ _ _ Hr) as Hr1.
  eapply IH; eauto; [apply J_user; eauto|eapply X_user; eauto].
Qed.

Lemma X_tell : forall i j s e pre k, i <> j -> J i s pre k -> X s [] ->
  running (tell prog P s j e) = true -> X (tell prog P s j e) [].
Proof.
  intros i j s e pre k Hij H HX Hr. unfold tell in *. destruct (_ && _); auto.
  eapply X_users; eauto. apply J_event_other; eauto.
Qed.

Lemma X_tells : forall i e l s pre k, ~ In i l -> J i s pre k -> X s [] ->
  running (fold_left (fun s i => tell prog P s i e) l s) = true ->
  X (fold_left (fun s i => tell prog P s i e) l s) [].
Proof.
  induction l as [|j l IH]; cbn; intros s pre k Hi H HX Hr; auto.
  pose proof (tells_running _ _ _ Hr) as Hr1.
  assert (Hj : i <> j) by (intros ->; apply Hi; auto).
  eapply IH; eauto; [apply J_tell_other; eauto|eapply X_tell; eauto].
Qed.

Lemma fresh_id : forall l : list nat, exists i, ~ In i l.
Proof.
  intros l. exists (S (list_max l)). intros H.
  assert (X0 : S (list_max l) <= list_max l).
  { clear -H. assert (G : forall m, In m l -> m <= list_max l).
    { apply Forall_forall. apply list_max_le. auto. }
    apply G. auto. }
  lia.
Qed.

Lemma X_broadcast : forall s e pre k, (forall i, J i s pre k) -> X s [] ->
  running (broadcast prog ord P s e) = true -> X (broadcast prog ord P s e) [].
Proof.
  intros s e pre k H HX Hr. unfold broadcast in *.
  destruct (fresh_id (ord (sj_iter s) (sj_tbl s))) as [i Hi].
  eapply X_tells; eauto. eapply J_frame; eauto.
Qed.

Lemma X_mapply : forall s m pre k, (forall i, J i s pre k) -> X s [] ->
  running (mapply prog ord P s m) = true -> X (mapply prog ord P s m) [].
Proof.
  intros s m pre k H HX Hr. destruct m; cbn [mapply] in *.
  - eapply X_broadcast; eauto.
  - eapply X_broadcast; eauto.
  - eapply X_broadcast; eauto.
  - apply X_same with (s := broadcast prog ord P s SU); auto. eapply X_broadcast; eauto.
  - destruct (existsb (Nat.eqb i) (sj_tbl s)); auto.
    eapply X_tell with (i := S i); eauto.
    apply J_drop; auto; rewrite inb_remove.
    + intros Y. apply andb_true_iff in Y. tauto.
    + replace (S i =? i) with false; [rewrite andb_true_r; auto|].
      symmetry. apply Nat.eqb_neq. lia.
  - eapply X_same; [exact HX| | |]; auto.
Qed.

(** ** Queued notifications *)

Definition Q0 s (rest : list (mnot A E)) : Prop :=
  exists k, NoDup (sj_tbl s) /\ (sj_flag s = true -> k = true) /\ forall i, J i s rest k.

Definition Q s rest owed : Prop := Q0 s rest /\ X s owed.

Lemma J_flag : forall i s pre, J i s pre true -> J i (with_flag s) pre true.
Proof.
  intros i s pre H.
  assert (Hb : base i (with_flag s) true = base i s true) by reflexivity.
  assert (Hv : vw i (with_flag s) = vw i s) by reflexivity.
  destruct H. constructor; rewrite ?Hb, ?Hv; auto.
  rewrite orb_true_l in j_end0. unfold obs_ok in *.
  destruct (vw_end (vw i s)) as [[]|]; auto. discriminate.
Qed.

Lemma J_cons_true : forall i s m rest, is_add i m = false -> J i s rest true -> J i s (m :: rest) true.
Proof.
  intros i s m rest Hm H. destruct H.
  constructor; cbn [app msteps fold_left adds okp closes]; rewrite ?Hm; auto.
Qed.

Lemma Q_drain : forall s rest, NoDup (sj_tbl s) -> (forall i, J i s rest true) ->
  running (mapply prog ord P s MUns) = true ->
  NoDup (sj_tbl (mapply prog ord P s MUns)) /\ (forall i, J i (mapply prog ord P s MUns) rest true).
Proof.
  intros s rest Hn H Hr.
  destruct (@J_mapply s MUns rest true Hn) as (H1 & H2 & H3); auto.
  - intros i. apply J_cons_true; auto.
  - discriminate.
Qed.

Lemma Q0_add : forall s j rest, Q0 s (MAdd j :: rest) -> Q0 (mapply prog ord P s (MAdd j)) rest.
Proof.
  intros s j rest (k & Hn & Hf & H).
  assert (Hadd : adds j ((MAdd j :: rest) ++ sj_queue s) = S (adds j (rest ++ sj_queue s))).
  { cbn. rewrite Nat.eqb_refl. auto. }
    assert (Hkf : k = false).
    { destruct k; auto. pose proof (j_ok (H j)) as X. apply okp_true in X. lia. }
    subst k.
    assert (Hnt : inb j (sj_tbl s) = false).
    { pose proof (j_once (H j)) as X. destruct (inb j (sj_tbl s)); auto. lia. }
    assert (Hin : forall i, inb i (sj_tbl s ++ [j]) = inb i (sj_tbl s) || Nat.eqb j i).
    { intros. unfold inb. rewrite existsb_app. cbn. rewrite orb_false_r, (Nat.eqb_sym i j). auto. }
    exists false. cbn [mapply]. split.
    { cbn. apply Permutation_NoDup with (l := j :: sj_tbl s).
      - apply Permutation_cons_append.
      - constructor; auto. intros X. apply inb_In in X. congruence. }
    split; [exact Hf|].
    intros i. specialize (H i). cbn [mapply].
    set (s1 := with_tbl s (sj_tbl s ++ [j])).
    assert (Hb : base i s1 false = mstep (sj_shut s i) i (base i s false) (MAdd j)).
    { unfold base, s1, mstep. cbn. rewrite Hin. destruct (j =? i) eqn:Hji; cbn.
      - apply Nat.eqb_eq in Hji. subst. rewrite orb_true_r. auto.
      - rewrite orb_false_r. auto. }
    assert (Hv : vw i s1 = vw i s) by reflexivity.
    assert (Hq : sj_queue s1 = sj_queue s) by reflexivity.
    destruct H; cbn [app msteps fold_left adds okp closes] in *.
    constructor; rewrite ?Hb, ?Hv, ?Hq; auto.
    + tauto.
    + unfold s1. cbn [sj_tbl with_tbl]. rewrite Hin. cbn in j_once0.
      destruct (j =? i), (inb i (sj_tbl s)); cbn in *; lia.
    + intros X. apply j_fresh0 in X. unfold s1. cbn [sj_tbl with_tbl]. rewrite Hin.
      cbn in X. destruct (j =? i); cbn in X.
      * destruct X as (X & _). lia.
      * rewrite orb_false_r. auto.
    + discriminate.
Qed.

Lemma Q0_one : forall s m rest, Q0 s (m :: rest) ->
  running (mapply_one prog ord P s m) = true -> Q0 (mapply_one prog ord P s m) rest.
Proof.
  intros s m rest (k & Hn & Hf & H) Hr.
  unfold mapply_one in *. destruct (running s) eqn:Hrs; [|congruence].
  destruct m as [a|e| | |j|j]; cbn zeta in *; cbn [is_terminal is_unsub orb] in *.
  - destruct (sj_flag s) eqn:Hfl.
    + rewrite Hf in H by auto. exists true. split; auto. split; auto. intros i.
      apply J_noop with (m := MNext a); auto.
    + destruct (J_mapply Hn H) as (H1 & H2 & H3); auto; [discriminate|].
      exists (k || mclosing (MNext a)). split; auto. split; auto. congruence.
  - destruct (sj_flag s) eqn:Hfl.
    + rewrite Hf in H by auto.
      destruct (@Q_drain s rest Hn) as [H1 H2]; auto.
      { intros i. apply (@J_skip i s (MErr e) rest true); auto. apply (j_k (H i)). auto. }
      exists true. split; auto. split; auto. intros i. apply J_flag. auto.
    + set (s1 := mapply prog ord P s (MErr e)) in *.
      assert (Hr1 : running s1 = true) by (apply (@mapply_running s1 MUns); exact Hr).
      destruct (J_mapply Hn H) as (H1 & H2 & H3); auto; [discriminate|].
      cbn [mclosing is_unsub is_terminal orb] in H1. rewrite orb_true_r in H1.
      destruct (@Q_drain s1 rest H2) as [H4 H5]; auto.
      exists true. split; auto. split; auto. intros i. apply J_flag. auto.
  - destruct (sj_flag s) eqn:Hfl.
    + rewrite Hf in H by auto.
      destruct (@Q_drain s rest Hn) as [H1 H2]; auto.
      { intros i. apply (@J_skip i s MCmp rest true); auto. apply (j_k (H i)). auto. }
      exists true. split; auto. split; auto. intros i. apply J_flag. auto.
    + set (s1 := mapply prog ord P s MCmp) in *.
      assert (Hr1 : running s1 = true) by (apply (@mapply_running s1 MUns); exact Hr).
      destruct (J_mapply Hn H) as (H1 & H2 & H3); auto; [discriminate|].
      cbn [mclosing is_unsub is_terminal orb] in H1. rewrite orb_true_r in H1.
      destruct (@Q_drain s1 rest H2) as [H4 H5]; auto.
      exists true. split; auto. split; auto. intros i. apply J_flag. auto.
  - destruct (sj_flag s) eqn:Hfl.
    + rewrite Hf in H by auto. exists true. split; auto. split; auto. intros i. apply J_flag.
      apply (@J_skip i s MUns rest true); auto. apply (j_k (H i)). auto.
    + destruct (J_mapply Hn H) as (H1 & H2 & H3); auto; [discriminate|].
      cbn [mclosing is_unsub is_terminal orb] in H1. rewrite orb_true_r in H1.
      exists true. split; auto. split; auto. intros i. apply J_flag. auto.
  - destruct (sj_flag s) eqn:Hfl.
    + rewrite Hf in H by auto. exists true. split; auto. split; auto. intros i.
      apply J_noop with (m := MOff j); auto.
    + destruct (J_mapply Hn H) as (H1 & H2 & H3); auto; [discriminate|].
      exists (k || mclosing (MOff j)). split; auto. split; auto. congruence.
  - assert (Hadd : adds j ((MAdd j :: rest) ++ sj_queue s) = S (adds j (rest ++ sj_queue s))).
    { cbn. rewrite Nat.eqb_refl. auto. }
    destruct (sj_shut s j) eqn:Hs.
    { exists k. split; auto. split; auto. intros i. eapply J_noop_add; eauto. }
    destruct (sj_flag s) eqn:Hfl.
    { pose proof (j_ok (H j)) as X. rewrite Hf in X by auto. apply okp_true in X. lia. }
    apply Q0_add. exists k. split; auto. split; [congruence|auto].
Qed.

Lemma Q_add : forall s j rest o, Q s (MAdd j :: rest) o -> Q (mapply prog ord P s (MAdd j)) rest o.
Proof.
  intros s j rest o [H HX]. split; [apply Q0_add; auto|].
  eapply X_same; [exact HX| | |]; auto.
Qed.

Lemma mapply_one_X : forall s m rest, Q s (m :: rest) [] ->
  running (mapply_one prog ord P s m) = true -> X (mapply_one prog ord P s m) [].
Proof.
  intros s m rest [(k & Hn & Hf & H) HX] Hr.
  unfold mapply_one in *. destruct (running s) eqn:Hrs; [|congruence].
  assert (HA : forall s1 pre k, (forall i, J i s1 pre k) -> X s1 [] ->
    running (with_flag (mapply prog ord P s1 MUns)) = true ->
    X (with_flag (mapply prog ord P s1 MUns)) []).
  { intros s1 pre k1 Hj Hx Hrr.
    apply X_same with (s := mapply prog ord P s1 MUns); auto. eapply X_mapply; eauto. }
  destruct m as [a|e| | |j|j]; cbn zeta in *; cbn [is_terminal is_unsub orb] in *.
  - destruct (sj_flag s); auto. eapply X_mapply; eauto.
  - destruct (sj_flag s) eqn:Hfl; [eapply HA; eauto|].
    assert (Hr1 : running (mapply prog ord P s (MErr e)) = true)
      by (apply (@mapply_running _ MUns); exact Hr).
    destruct (J_mapply Hn H) as (H1 & H2 & H3); auto; [discriminate|].
    eapply HA; eauto. eapply X_mapply; eauto.
  - destruct (sj_flag s) eqn:Hfl; [eapply HA; eauto|].
    assert (Hr1 : running (mapply prog ord P s MCmp) = true)
      by (apply (@mapply_running _ MUns); exact Hr).
    destruct (J_mapply Hn H) as (H1 & H2 & H3); auto; [discriminate|].
    eapply HA; eauto. eapply X_mapply; eauto.
  - destruct (sj_flag s) eqn:Hfl; [eapply X_same; [exact HX| | |]; auto|].
    eapply HA; eauto.
  - destruct (sj_flag s); auto. eapply X_mapply; eauto.
  - destruct (sj_shut s j) eqn:Hs; auto. destruct (sj_flag s) eqn:Hfl.
    + assert (Hadd : adds j ((MAdd j :: rest) ++ sj_queue s) = S (adds j (rest ++ sj_queue s))).
      { cbn. rewrite Nat.eqb_refl. auto. }
      pose proof (j_ok (H j)) as Y. rewrite Hf in Y by auto. apply okp_true in Y. lia.
    + eapply X_mapply; eauto.
Qed.

Lemma Q_one : forall s m rest, Q s (m :: rest) [] ->
  running (mapply_one prog ord P s m) = true -> Q (mapply_one prog ord P s m) rest [].
Proof.
  intros s m rest H Hr. split; [apply Q0_one; auto; apply H|eapply mapply_one_X; eauto].
Qed.

Lemma one_running : forall s m, running (mapply_one prog ord P s m) = true -> running s = true.
Proof. intros s m H. unfold mapply_one in H. destruct (running s) eqn:X; congruence. Qed.

Lemma ones_running : forall ms s,
  running (fold_left (mapply_one prog ord P) ms s) = true -> running s = true.
Proof. induction ms; cbn; intros; auto. eauto using one_running. Qed.

Lemma Q_ones : forall ms s, Q s ms [] ->
  running (fold_left (mapply_one prog ord P) ms s) = true ->
  Q (fold_left (mapply_one prog ord P) ms s) [] [].
Proof.
  induction ms as [|m ms IH]; cbn; intros s H Hr; auto.
  apply IH; auto. apply Q_one; auto. eapply ones_running; eauto.
Qed.

Lemma NoDup_filter' : forall (f : nat -> bool) l, NoDup l -> NoDup (filter f l).
Proof. intros. apply NoDup_filter. auto. Qed.

Lemma Q_clean : forall s, Q s [] [] -> Q (clean P s) [] [].
Proof.
  intros s [(k & Hn & Hf & H) HX]. split; [|eapply X_same; [exact HX| | |]; auto].
  exists k. split; [cbn; apply NoDup_filter; auto|].
  split; auto. intros i. apply J_drop; auto.
  - rewrite !inb_In, filter_In. tauto.
  - set (f := fun j => negb (sj_shut s j)).
    destruct (inb i (filter f (sj_tbl s))) eqn:X; symmetry.
    + apply inb_In, filter_In in X. destruct X as [X Y]. apply inb_In in X. rewrite X. auto.
    + cbn. destruct (inb i (sj_tbl s)) eqn:Y; auto. cbn.
      destruct (negb (sj_shut s i)) eqn:Z; auto.
      apply inb_In in Y. assert (W : In i (filter f (sj_tbl s))) by (apply filter_In; auto).
      apply inb_In in W. congruence.
Qed.

Lemma J_move : forall i s k, J i s [] k <-> J i (with_queue s []) (sj_queue s) k.
Proof.
  intros i s k.
  assert (Hb : base i (with_queue s []) k = base i s k) by reflexivity.
  assert (Hv : vw i (with_queue s []) = vw i s) by reflexivity.
  split; intros []; constructor; rewrite ?Hb, ?Hv in *;
    cbn [sj_queue with_queue app] in *; rewrite ?app_nil_r in *; auto.
Qed.

Lemma Q_move : forall s o, Q s [] o <-> Q (with_queue s []) (sj_queue s) o.
Proof.
  intros s o. split; (intros [(k & H1 & H2 & H3) HX]; split;
    [exists k; (split; [auto|split; [auto|]]); intros i; apply J_move; auto
    |eapply X_same; [exact HX| | |]; auto]).
Qed.

Lemma queue_S : forall n s, mapply_queue prog ord P (S n) s =
  if running s then
    match sj_queue s with
    | [] => s
    | ms => mapply_queue prog ord P n (clean P (fold_left (mapply_one prog ord P) ms (with_queue s [])))
    end
  else s.
Proof. reflexivity. Qed.

Lemma queue_running : forall n s, running (mapply_queue prog ord P n s) = true -> running s = true.
Proof.
  destruct n; intros s; cbn [mapply_queue]; destruct (running s) eqn:X; auto; congruence.
Qed.

Lemma Q_queue : forall n s, Q s [] [] -> running (mapply_queue prog ord P n s) = true ->
  Q (mapply_queue prog ord P n s) [] [] /\ sj_queue (mapply_queue prog ord P n s) = [].
Proof.
  induction n as [|n IH]; intros s H Hr.
  - cbn in Hr. destruct (running s) eqn:X; [discriminate|]. rewrite X in Hr. discriminate.
  - pose proof (queue_running _ _ Hr) as Hrs. rewrite queue_S in *. rewrite Hrs in *.
    destruct (sj_queue s) as [|m ms] eqn:Hq; [auto|].
    pose proof (queue_running _ _ Hr) as Hr2.
    apply IH; auto. apply Q_clean. apply Q_ones; auto.
    rewrite <- Hq. apply Q_move. auto.
Qed.

Lemma Q_try : forall s, Q s [] [] -> running (mtry_apply prog ord P s) = true ->
  Q (mtry_apply prog ord P s) [] [] /\ sj_queue (mtry_apply prog ord P s) = [].
Proof.
  intros s H Hr. unfold mtry_apply in *. destruct (sj_queue s) eqn:Hq; auto.
  apply Q_queue; auto.
Qed.

Lemma try_running : forall s, running (mtry_apply prog ord P s) = true -> running s = true.
Proof.
  intros s H. unfold mtry_apply in H. destruct (sj_queue s); auto. eapply queue_running; eauto.
Qed.

(** ** Calls from outside *)

Lemma greet_queue : forall i r s, sj_queue (greet prog s i r) = sj_queue s.
Proof.
  induction r as [|a r IH]; intros s; auto. rewrite greet_cons, IH.
  destruct (running s && negb (sj_shut s i)); auto. cbn zeta.
  destruct (fst (prog i (history s i ++ [SN a]))); auto.
Qed.

Lemma reject_queue : forall i s, sj_queue (reject prog s i) = sj_queue s.
Proof.
  intros i s. unfold reject. destruct (_ && _); auto. cbn zeta.
  destruct (sj_err s); [destruct (fst (prog i (history s i ++ [SE e]))); auto|].
  destruct (sj_cmp s); auto. destruct (fst (prog i (history s i ++ [SC]))); auto.
Qed.

Lemma queue_nil : forall s, sj_queue s = [] -> mapply_queue prog ord P mdepth s = s.
Proof.
  intros s H. unfold mdepth. rewrite queue_S. destruct (running s); rewrite ?H; auto.
Qed.

Lemma Q_inner : forall me s c o, Q s [] (c :: o) -> running s = true ->
  running (inner_call prog me s c) = true -> Q (inner_call prog me s c) [] o.
Proof.
  intros me s c o [(k & Hn & Hf & H) HX] Hr Hr1. destruct (inner_frame me s c) as [F1 F2].
  split; [|apply X_inner; auto]. exists k. rewrite F1, F2. split; auto. split; auto. intros i. apply J_inner; auto.
Qed.

Lemma Q_queued : forall s m o, Q (with_queue s [m]) [] o -> sj_queue s = [] -> Q s [m] o.
Proof.
  intros s m o H Hq. apply Q_move in H. cbn [sj_queue with_queue] in H.
  replace (with_queue (with_queue s [m]) []) with s in H; auto.
  destruct s; cbn in *; subst; auto.
Qed.

Lemma Q_mapply : forall s m, Q s [m] [] -> (forall i, m <> MAdd i) ->
  running (mapply prog ord P s m) = true -> Q (mapply prog ord P s m) [] [].
Proof.
  intros s m [(k & Hn & Hf & H) HX] Hm Hr. split; [|eapply X_mapply; eauto].
  destruct (J_mapply Hn H) as (H1 & H2 & H3); auto.
  exists (k || mclosing m). split; auto. split; auto. rewrite H3. intros X. rewrite Hf; auto.
Qed.

Lemma Q_outer : forall s c, Q s [] [c] -> sj_queue s = [] ->
  running (outer_call prog ord P s c) = true ->
  Q (outer_call prog ord P s c) [] [] /\
  ((forall i, c <> KOff i) -> sj_queue (outer_call prog ord P s c) = []).
Proof.
  intros s c H Hq Hr. unfold outer_call in *. destruct (running s) eqn:Hrs; [|congruence].
  assert (Hmd : mtry_apply prog ord P s = s) by (unfold mtry_apply; rewrite Hq; auto).
  destruct c as [a|e| | |r|j]; cbn zeta in *.
  - rewrite queue_nil in * by auto. change (running (with_made s (KNext a))) with (running s) in *.
    rewrite Hrs in *. change (sj_closed (with_made s (KNext a))) with (sj_closed s) in *.
    pose proof (try_running _ Hr) as Hr1.
    enough (X : Q (if sj_closed s then with_made s (KNext a)
                   else mapply prog ord P (with_made s (KNext a)) (MNext a)) [] []).
    { destruct (Q_try X Hr). split; auto. }
    pose proof (@Q_inner 0 s (KNext a) [] H Hrs) as X. unfold inner_call in X. rewrite Hrs in X.
    cbn zeta in X. change (sj_closed (with_made s (KNext a))) with (sj_closed s) in X.
    destruct (sj_closed s) eqn:Hc; [apply X; auto|].
    assert (Hfl : sj_flag s = false).
    { unfold sj_closed in Hc. destruct (sj_flag s); auto. }
    unfold mdefer in X. cbn [sj_flag with_made] in X. rewrite Hfl in X. cbn [andb] in X.
    cbn [sj_queue with_made] in X. rewrite Hq in X. cbn [app] in X.
    apply Q_mapply; auto; [|discriminate]. apply Q_queued; auto.
  - pose proof (@Q_inner 0 s (KErr e) [] H Hrs) as X. unfold inner_call in X. rewrite Hrs in X.
    cbn zeta in X. change (sj_closed (with_made s (KErr e))) with (sj_closed s) in *.
    set (s1 := with_obs (with_made s (KErr e)) _ _ _) in *.
    assert (Hq1 : sj_queue s1 = []) by auto.
    assert (Hr1 : running s1 = true) by auto.
    rewrite (queue_nil _ Hq1) in *. rewrite Hr1 in *.
    pose proof (try_running _ Hr) as Hr2.
    enough (Y : Q (if sj_closed s then with_made s (KErr e) else mapply prog ord P s1 (MErr e)) [] []).
    { destruct (Q_try Y Hr). split; auto. }
    destruct (sj_closed s) eqn:Hc; [apply X; auto|].
    assert (Hfl : sj_flag s1 = false).
    { unfold sj_closed in Hc. cbn. destruct (sj_flag s); auto. }
    unfold mdefer in X. rewrite Hfl, Hq1 in X. cbn [andb app] in X.
    apply Q_mapply; auto; [|discriminate]. apply Q_queued; auto.
  - pose proof (@Q_inner 0 s KCmp [] H Hrs) as X. unfold inner_call in X. rewrite Hrs in X.
    cbn zeta in X. change (sj_closed (with_made s KCmp)) with (sj_closed s) in *.
    set (s1 := with_obs (with_made s KCmp) _ _ _) in *.
    assert (Hq1 : sj_queue s1 = []) by auto.
    assert (Hr1 : running s1 = true) by auto.
    rewrite (queue_nil _ Hq1) in *. rewrite Hr1 in *.
    pose proof (try_running _ Hr) as Hr2.
    enough (Y : Q (if sj_closed s then with_made s KCmp else mapply prog ord P s1 MCmp) [] []).
    { destruct (Q_try Y Hr). split; auto. }
    destruct (sj_closed s) eqn:Hc; [apply X; auto|].
    assert (Hfl : sj_flag s1 = false).
    { unfold sj_closed in Hc. cbn. destruct (sj_flag s); auto. }
    unfold mdefer in X. rewrite Hfl, Hq1 in X. cbn [andb app] in X.
    apply Q_mapply; auto; [|discriminate]. apply Q_queued; auto.
  - assert (HX : X (with_flag (with_obs (with_made s KUns) (sj_cmp s) true (sj_err s))) []).
    { destruct H as [_ HX]. intros Z. specialize (HX Z). cbn in *. rewrite app_nil_r. exact HX. }
    pose proof (@Q_inner 0 s KUns [] H Hrs) as X. unfold inner_call in X. rewrite Hrs in X.
    cbn zeta in X. change (sj_uns (with_made s KUns)) with (sj_uns s) in *.
    set (s1 := with_obs (with_made s KUns) _ _ _) in *.
    assert (Hq1 : sj_queue s1 = []) by auto.
    assert (Hr1 : running s1 = true) by auto.
    rewrite (queue_nil _ Hq1) in *. rewrite Hr1 in *.
    pose proof (try_running _ Hr) as Hr2.
    enough (Y : Q (if sj_uns s then with_made s KUns else mapply prog ord P (with_flag s1) MUns) [] []).
    { destruct (Q_try Y Hr). split; auto. }
    destruct (sj_uns s) eqn:Hu; [apply X; auto|].
    assert (Hj : exists k, NoDup (sj_tbl s1) /\ forall i, J i (with_flag s1) [MUns] k).
    { destruct (sj_flag s1) eqn:Hfl; unfold mdefer in X; rewrite Hfl, Hq1 in X; cbn [andb app sj_uns s1 with_obs negb] in X.
      - destruct X as [(k & X1 & X2 & X3) _]; auto. exists true. split; auto.
        rewrite X2 in X3 by auto. intros i. apply J_flag, J_cons_true; auto.
      - apply Q_queued in X; auto. destruct X as [(k & X1 & X2 & X3) _]; auto. exists k. split; auto.
        intros i. specialize (X3 i).
        assert (Hb : base i (with_flag s1) k = base i s1 k) by reflexivity.
        assert (Hv : vw i (with_flag s1) = vw i s1) by reflexivity.
        destruct X3. constructor; rewrite ?Hb, ?Hv; auto.
        rewrite Hq1 in j_end0. cbn [app closes mclosing is_unsub orb] in j_end0. rewrite orb_true_r in j_end0. unfold obs_ok in *.
        destruct (vw_end (vw i s1)) as [[]|]; auto. discriminate. }
    destruct Hj as (k & Hn & Hj).
    destruct (@J_mapply (with_flag s1) MUns [] k) as (H1 & H2 & H3); auto; [discriminate|].
    split; [|eapply X_mapply; eauto].
    exists (k || true). split; auto. split; auto. intros _. apply orb_true_r.
  - pose proof (@Q_inner 0 s (KSub r) [] H Hrs) as X. unfold inner_call in X. rewrite Hrs in X.
    cbn zeta in X. change (sj_next_id (with_made s (KSub r))) with (sj_next_id s) in *.
    set (j := sj_next_id s) in *.
    set (s1 := greet prog _ _ _) in *.
    assert (Hq1 : sj_queue s1 = []) by (unfold s1; rewrite greet_queue; auto).
    assert (Hm1 : mtry_apply prog ord P s1 = s1) by (unfold mtry_apply; rewrite Hq1; auto).
    rewrite Hm1 in *. destruct (running s1) eqn:Hr1; [|congruence].
    destruct (sj_closed s1) eqn:Hc.
    + split; [apply X; auto|]. intros _. rewrite reject_queue. auto.
    + rewrite (queue_nil _ Hq1) in *. rewrite Hr1 in *.
      assert (Hfl : sj_flag s1 = false).
      { unfold sj_closed in Hc. destruct (sj_flag s1); auto. }
      unfold mdefer in X. rewrite Hfl, Hq1 in X. cbn [andb app] in X.
      enough (Y : Q (mapply prog ord P s1 (MAdd j)) [] []).
      { destruct (Q_try Y Hr). split; auto. }
      apply Q_queued in X; auto.
      apply Q_add; auto.
  - split; [|intros X; exfalso; eapply X; eauto].
    pose proof (@Q_inner (S j) s (KOff j) [] H Hrs) as X. unfold inner_call in X. rewrite Hrs in X.
    cbn zeta in X. replace (j =? S j) with false in X by (symmetry; apply Nat.eqb_neq; lia).
    cbn [negb andb] in X. cbn [sj_shut sj_taken sj_next_id with_made] in *.
    destruct (_ || _); [apply X; auto|].
    set (s1 := with_taken (with_made s (KOff j)) j) in *.
    assert (Hq1 : sj_queue s1 = []) by auto.
    assert (Hr1 : running s1 = true) by auto.
    rewrite (queue_nil _ Hq1) in *. rewrite Hr1 in *.
    unfold mdefer in X. destruct (sj_flag s1) eqn:Hfl; rewrite Hq1 in X; cbn [andb negb app] in X.
    + destruct X as [(k & X1 & X2 & X3) HX]; auto.
      assert (Hkt : k = true) by auto. subst k.
      destruct (@J_mapply s1 (MOff j) [] true) as (H1 & H2 & H3); auto; try discriminate.
      { intros i. apply J_cons_true; auto. }
      split; [exists true; auto|eapply X_mapply; eauto].
    + apply Q_queued in X; auto. apply Q_mapply; auto. discriminate.
Qed.

Lemma Q_new : Q (sj_new P) [] [].
Proof.
  split; [|intros _; reflexivity].
  exists false. split; [constructor|]. split; [discriminate|]. intros i.
  constructor; cbn; auto; try discriminate.
Qed.

Lemma outer_running : forall s c, running (outer_call prog ord P s c) = true -> running s = true.
Proof. intros s c H. unfold outer_call in H. destruct (running s) eqn:X; congruence. Qed.

Lemma outers_running : forall cs s,
  running (fold_left (outer_call prog ord P) cs s) = true -> running s = true.
Proof.
  induction cs as [|c cs IH]; cbn; intros s H; auto.
  eapply outer_running. apply IH. exact H.
Qed.

Definition no_off (cs : list (cmd A E)) : Prop := forall i, ~ In (KOff i) cs.

(** A subject does not combine unsubscribing one subscriber with anything else. *)
Definition polite : Prop := forall x c e u,
  no_off (po_calls P x c e u) \/ exists i, po_calls P x c e u = [KOff i].

Lemma Q_outer_calls : forall cs s, Q s [] cs -> sj_queue s = [] -> no_off cs ->
  (single -> exists c, cs = [c]) \/ (single -> cs = []) ->
  running (fold_left (outer_call prog ord P) cs s) = true ->
  Q (fold_left (outer_call prog ord P) cs s) [] [] /\
  sj_queue (fold_left (outer_call prog ord P) cs s) = [].
Proof.
  induction cs as [|c cs IH]; intros s H Hq Hn Hs Hr; auto.
  cbn in *. pose proof (outers_running _ _ Hr) as Hr1.
  assert (Hs1 : single -> cs = []).
  { intros Z. destruct Hs as [Hs|Hs]; specialize (Hs Z); [destruct Hs as [c0 Hs]|]; congruence. }
  assert (H0 : Q s [] [c]).
  { destruct H as [H HX]. split; auto. intros Z. specialize (HX Z). rewrite (Hs1 Z) in HX. auto. }
  destruct (@Q_outer s c H0 Hq Hr1) as [H1 H2].
  apply IH; auto.
  - destruct H1 as [H1 HX]. split; auto. intros Z. rewrite (Hs1 Z). auto.
  - apply H2. intros i ->. apply (Hn i). left. auto.
  - intros i Y. apply (Hn i). right. auto.
Qed.

Lemma Q_with_user : forall s u, Q s [] [] ->
  let x := po_keep P (sj_store s) u in
  Q (with_user s x u) [] (po_calls P x (sj_closed s) (some (sj_err s)) u).
Proof.
  intros s u [(k & H1 & H2 & H3) HX] x. split.
  - exists k. split; auto. split; auto. intros i. destruct (H3 i). constructor; auto.
  - apply (@X_with_user 0 s u [] k); auto.
Qed.

Lemma Q_user : forall s u, polite -> Q s [] [] -> sj_queue s = [] ->
  running (outer_user prog ord P s u) = true ->
  Q (outer_user prog ord P s u) [] [] /\
  (no_off (po_calls P (po_keep P (sj_store s) u) (sj_closed s)
      (some (sj_err s)) u) -> sj_queue (outer_user prog ord P s u) = []).
Proof.
  intros s u Hp H Hq Hr. unfold outer_user in *. destruct (running s) eqn:Hrs; [|congruence].
  fold (some (sj_err s)) in *.
  set (x := po_keep P (sj_store s) u) in *.
  pose proof (@Q_with_user s u H) as HU. cbn zeta in HU. fold x in HU.
  destruct (Hp x (sj_closed s) (some (sj_err s)) u) as [Hn|[i Hi]].
  - assert (Hs : single -> exists c, po_calls P x (sj_closed s) (some (sj_err s)) u = [c]).
    { intros Z. apply Z. }
    destruct (@Q_outer_calls _ _ HU Hq Hn (or_introl Hs) Hr) as [H1 H2]. split; auto.
  - cbn zeta in *. fold (some (sj_err s)). rewrite Hi in *. cbn [fold_left] in *.
    destruct (@Q_outer _ (KOff i) HU Hq Hr) as [H1 H2]. split; auto.
    intros Y. exfalso. apply (Y i). left. auto.
Qed.

(** No call stays behind in the queue when a call from outside returns. *)
Fixpoint settles s (us : list (ucmd A E)) : Prop :=
  match us with
  | [] => True
  | u :: us' => sj_queue (outer_user prog ord P s u) = [] /\ settles (outer_user prog ord P s u) us'
  end.

Lemma outer_user_running : forall s u, running (outer_user prog ord P s u) = true -> running s = true.
Proof. intros s u H. unfold outer_user in H. destruct (running s) eqn:Y; congruence. Qed.

Lemma outer_users_running : forall us s,
  running (outer_users prog ord P s us) = true -> running s = true.
Proof.
  induction us as [|u us IH]; cbn; intros s H; auto.
  eapply outer_user_running. apply IH. exact H.
Qed.

Lemma Q_users : forall us s, polite -> Q s [] [] -> sj_queue s = [] ->
  running (outer_users prog ord P s us) = true -> settles s us ->
  Q (outer_users prog ord P s us) [] [] /\ sj_queue (outer_users prog ord P s us) = [].
Proof.
  induction us as [|u us IH]; intros s Hp H Hq Hr Hs; auto.
  cbn in *. destruct Hs as [Hs1 Hs2]. pose proof (outer_users_running us _ Hr) as Hr1.
  apply IH; auto. apply Q_user; auto.
Qed.

Lemma Q_view : forall s i o, Q s [] o -> sj_queue s = [] ->
  history s i = vw_told (view_of (quits i) i (sj_made s)).
Proof.
  intros s i o [(k & _ & _ & H) _] Hq. pose proof (j_told (H i)) as Y. rewrite Hq in Y. exact Y.
Qed.

Theorem told_view : forall us i, polite ->
  let s := outer_users prog ord P (sj_new P) us in
  running s = true -> settles (sj_new P) us ->
  history s i = vw_told (view_of (quits i) i (sj_made s)).
Proof.
  intros us i Hp s Hr Hs. destruct (@Q_users us (sj_new P) Hp Q_new) as [H1 H2]; auto.
  eapply Q_view; eauto.
Qed.

Theorem made_expand : forall us, polite -> single ->
  let s := outer_users prog ord P (sj_new P) us in
  running s = true -> settles (sj_new P) us ->
  sj_made s = snd (expand P (sj_user s)) /\ sj_store s = fst (expand P (sj_user s)).
Proof.
  intros us Hp Hg s Hr Hs. destruct (@Q_users us (sj_new P) Hp Q_new) as [[_ HX] _]; auto.
  fold s in HX. rewrite (HX Hg), app_nil_r. auto.
Qed.

End Subject.
