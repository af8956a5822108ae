(** From single operators to pipelines. *)
From Verif Require Import Base SubscrModel SubscrProofs OpsModel OpsSpec OpsProofs OpsSem OpsMean.
Set Implicit Arguments.

(** ** Registering teardowns does not change what is notified *)
Record blind {X I E} (S : subscriber X I E) : Type := {
  b_rel : st S -> st S -> Prop;
  b_refl : forall s, b_rel s s;
  b_closed : forall a b, b_rel a b -> closed S a = closed S b;
  b_step : forall a b c, b_rel a b ->
    obs (snd (step S a c)) = obs (snd (step S b c)) /\ b_rel (fst (step S a c)) (fst (step S b c));
  b_add : forall a b t, b_rel a b ->
    obs (snd (step S a (CAdd t))) = [] /\ b_rel (fst (step S a (CAdd t))) b
}.

Lemma sink_blind O F : blind (sink O F).
Proof.
  refine (@Build_blind _ _ _ (sink O F) (fun a b => sd_closed a = sd_closed b) _ _ _ _); simpl; auto.
  - intros [ca fa] [cb fb] c H; simpl in H; subst.
    destruct c as [[]| |]; simpl; unfold sink_next, sink_error, sink_complete, sink_drop, sd_unsubscribe, sd_add; simpl;
      destruct cb; simpl; rewrite ?obs_map_td; auto.
  - intros [ca fa] [cb fb] t H; simpl in H; subst. unfold sd_add; simpl. destruct cb; simpl; rewrite ?obs_map_td; auto.
Qed.

Lemma exec_acts_blind X O F (D : subscriber X O F) (B : blind D) l a b :
  b_rel B a b ->
  obs (snd (exec_acts D a l)) = obs (snd (exec_acts D b l)) /\
  b_rel B (fst (exec_acts D a l)) (fst (exec_acts D b l)).
Proof.
  revert a b; induction l as [|x l IH]; intros a b H; [auto|].
  rewrite !exec_acts_cons; simpl. rewrite !obs_app.
  assert (Hx : obs (snd (exec_act D a x)) = obs (snd (exec_act D b x)) /\
               b_rel B (fst (exec_act D a x)) (fst (exec_act D b x))).
  { destruct x as [n|n|n]; simpl; auto using (b_step B).
    rewrite (b_closed B _ _ H). destruct (closed D b); simpl; auto using (b_step B). }
  destruct Hx as [H1 H2]. destruct (IH _ _ H2) as [H3 H4]. rewrite H1, H3; auto.
Qed.

Lemma denote_blind X I E O F (T : trans I E O F) (D : subscriber X O F) : blind D -> blind (denote T D).
Proof.
  intros B.
  refine (@Build_blind _ _ _ (denote T D)
    (fun a b => fst a = fst b /\ b_rel B (snd a) (snd b)) _ _ _ _).
  - intros [q d]; simpl; split; auto. apply (b_refl B).
  - intros [q d] [q' d'] [H1 H2]; simpl in *; subst. rewrite (b_closed B _ _ H2); reflexivity.
  - intros [q d] [q' d'] c [H1 H2]; simpl in *; subst. destruct c as [n|t|]; simpl.
    + rewrite !den_n_eq; simpl. rewrite (b_closed B _ _ H2).
      destruct (exec_acts_blind B (snd (react T q' (closed D d') n)) _ _ H2) as [H3 H4]. auto.
    + destruct (b_step B _ _ (CAdd t) H2) as [H3 H4].
      destruct (step D d (CAdd t)), (step D d' (CAdd t)); simpl in *. auto.
    + rewrite !den_drop_eq; simpl. rewrite (b_closed B _ _ H2), !obs_app.
      destruct (exec_acts_blind B (snd (on_drop T q' (closed D d'))) _ _ H2) as [H3 H4].
      destruct (b_step B _ _ CDrop H4) as [H5 H6]. rewrite H3, H5; auto.
  - intros [q d] [q' d'] t [H1 H2]; simpl in *; subst.
    destruct (b_add B _ _ t H2) as [H3 H4]. destruct (step D d (CAdd t)); simpl in *; auto.
Qed.

Lemma shifted_blind X A E (D : subscriber X A E) r : blind D -> blind (shifted D r).
Proof.
  intros B. exact (@Build_blind _ _ _ (shifted D r) (b_rel B) (b_refl B) (b_closed B) (b_step B) (b_add B)).
Qed.

Lemma op_blind {X I E O F} (o : oper I E O F) :
  forall (D : subscriber X O F), blind D -> blind (op_sub o D).
Proof.
  induction o; simpl; intros D HB; auto using denote_blind.
  - rewrite start_with_shifted. apply shifted_blind, HB.
  - rewrite on_subscribe_shifted. apply shifted_blind, HB.
  - rewrite finalize_shifted. apply shifted_blind, HB.
Qed.

Lemma pipe_blind {X I E O F} (p : pipe I E O F) :
  forall (D : subscriber X O F), blind D -> blind (pipe_sub p D).
Proof. induction p; simpl; intros D HB; auto using op_blind. Qed.

Lemma run_from_blind X A E (D : subscriber X A E) (B : blind D) cs a b :
  b_rel B a b ->
  obs (snd (run_from D a cs)) = obs (snd (run_from D b cs)) /\
  b_rel B (fst (run_from D a cs)) (fst (run_from D b cs)).
Proof.
  revert a b; induction cs as [|c cs IH]; intros a b H; [auto|].
  rewrite !run_from_cons; simpl. rewrite !obs_app.
  destruct (b_step B _ _ c H) as [H1 H2]. destruct (IH _ _ H2) as [H3 H4]. rewrite H1, H3; auto.
Qed.

(** ** Every operator over every lawful destination *)
Definition shows_as {X I E O F} (S : subscriber X I E) (D : subscriber X O F)
  (cs : list (call I E)) (ds : list (call O F)) : Prop :=
  obs (run S cs) = obs (run D ds) /\ closed S (final S cs) = closed D (final D ds).

Lemma shows_trans X I E O F P G (A : subscriber X I E) (B : subscriber X O F) (C : subscriber X P G) a b c :
  shows_as A B a b -> shows_as B C b c -> shows_as A C a c.
Proof. unfold shows_as. intros [H1 H2] [H3 H4]; split; congruence. Qed.

Lemma fuse_obs X I E O F (T : trans I E O F) (TL : tlaw T) (D : subscriber X O F) adds (L : lawful D adds) t u :
  mean T t = u -> shows_as (denote T D) D (calls t) (calls u).
Proof.
  intros <-. destruct (fuse L TL t) as [H1 H2]. split; auto.
  rewrite <- obs_vis, H1, obs_vis; reflexivity.
Qed.

Lemma calls_map A E (t : trace A E) : calls t = map (fun n => CN n) (ncs t).
Proof. reflexivity. Qed.

Lemma shows_shifted X A E (D : subscriber X A E) adds (L : lawful D adds) (l : list (ncall A E)) t :
  shows_as (shifted D (run_from D (s0 D) (map (fun n => CN n) l))) D (calls t) (calls (cut (l ++ ncs t))).
Proof.
  unfold shows_as. rewrite shifted_run, shifted_final.
  destruct (run_cut L (l ++ ncs t) (s0 D) (l_inv0 L)) as [H1 H2].
  unfold run, final. fold (ncall_run D (s0 D) (ncs (cut (l ++ ncs t)))). rewrite !calls_map.
  fold (ncall_run D (s0 D) (ncs (cut (l ++ ncs t)))). rewrite <- H2.
  rewrite (obs_app (w0 D) (snd (ncall_run D (s0 D) (ncs (cut (l ++ ncs t)))))).
  rewrite <- (obs_vis (snd (ncall_run D (s0 D) (ncs (cut (l ++ ncs t)))))), <- H1, obs_vis.
  rewrite !obs_app. unfold ncall_run. rewrite map_app, run_from_app; simpl. rewrite obs_app. auto.
Qed.

Lemma shows_finalize X A E (D : subscriber X A E) (B : blind D) k t :
  shows_as (sub_finalize k D) D (calls t) (calls t).
Proof.
  rewrite finalize_shifted. unfold shows_as. rewrite shifted_run, shifted_final.
  unfold run, final. rewrite !obs_app.
  destruct (b_add B (s0 D) (s0 D) [k] (b_refl B _)) as [H1 H2]. rewrite H1.
  destruct (run_from_blind B (calls t) _ _ H2) as [H3 H4]. rewrite H3. split; auto.
  apply (b_closed B), H4.
Qed.

Lemma into_result_run X A E (D : subscriber X (A + E) Empty_set) (t : trace A E) :
  shows_as (denote t_into_result D) D (calls t) (calls (spec (OIntoResult A E) t)).
Proof.
  unfold shows_as, run, final. simpl w0. simpl s0. unfold den_ctor; simpl.
  change (exec_acts D (s0 D) []) with (s0 D, @nil (ev X)). simpl. rewrite app_nil_r.
  rewrite !obs_app.
  assert (G : forall (l : list A) f d,
    run_from (denote t_into_result D) (tt, d) (calls (l, f)) =
    (let r := run_from D d (calls (spec (OIntoResult A E) (l, f))) in ((tt, fst r), snd r))).
  { induction l as [|a l IH]; intros f d.
    - destruct f; simpl; try reflexivity; unfold den_n; simpl; unfold exec_acts; simpl.
      + destruct (step D d (CN (Nxt (inr e)))); simpl; rewrite !app_nil_r; reflexivity.
      + destruct (step D d (CN Cmp)); simpl; rewrite !app_nil_r; reflexivity.
      + destruct (step D d (CN Uns)); simpl; rewrite !app_nil_r; reflexivity.
    - change (calls (a :: l, f)) with (CN (Nxt a) :: calls (l, f)).
      change (calls (spec (OIntoResult A E) (a :: l, f)))
        with (CN (Nxt (inl a)) :: calls (spec (OIntoResult A E) (l, f))).
      rewrite !run_from_cons. simpl step.
      assert (Es : den_n t_into_result D (tt, d) (Nxt a) =
                   let r := step D d (CN (Nxt (inl a))) in ((tt, fst r), snd r)).
      { unfold den_n; simpl; unfold exec_acts; simpl.
        destruct (step D d (CN (Nxt (inl a)))); simpl. rewrite app_nil_r; reflexivity. }
      rewrite Es. cbn [fst snd]. rewrite IH. reflexivity. }
  destruct t as [l f]. rewrite (G l f (s0 D)). cbn [fst snd]. auto.
Qed.

Theorem op_shows {X I E O F} (o : oper I E O F) :
  closes_on_error o = true ->
  forall (D : subscriber X O F) adds, lawful D adds -> blind D ->
  forall t, shows_as (op_sub o D) D (calls t) (calls (spec o t)).
Proof.
  induction o; cbn [closes_on_error]; intros Hc D adds L HB t; try discriminate; cbn [op_sub spec];
    try (eapply fuse_obs; [|eassumption|];
         [first [apply tl_map|apply tl_filter|apply tl_skip|apply tl_take|apply tl_first|apply tl_element_at
                |apply tl_find|apply tl_find_index|apply tl_is_empty|apply tl_scan|apply tl_reduce|apply tl_count
                |apply tl_enumerate|apply tl_pairwise|apply tl_buffer_count|apply tl_end_with|apply tl_materialize
                |apply tl_dematerialize|apply tl_lift_option|apply tl_lift_result|apply tl_map_error|apply tl_map_into
                |apply tl_mnn|apply tl_mne|apply tl_mnb|apply tl_error_boundary|apply tl_identity|apply tl_tap_next
                |apply tl_tap|apply tl_on_next]
         |first [apply mean_map|apply mean_filter|apply mean_skip|apply mean_take|apply mean_first|apply mean_element_at
                |apply mean_find|apply mean_find_index|apply mean_is_empty|apply mean_scan|apply mean_reduce|apply mean_count
                |apply mean_enumerate|apply mean_pairwise|apply mean_buffer_count|apply mean_end_with|apply mean_materialize
                |apply mean_dematerialize|apply mean_lift_option|apply mean_lift_result|apply mean_map_error|apply mean_map_into
                |apply mean_mnn|apply mean_mne|apply mean_mnb|apply mean_error_boundary|apply mean_identity|apply mean_tap_next
                |apply mean_tap|apply mean_on_next]]; fail).
  - rewrite start_with_shifted'.
    replace (a :: fst t, snd t) with (cut ([Nxt a] ++ ncs t)) by (simpl; rewrite cut_ncs; reflexivity).
    apply (shows_shifted L).
  - rewrite on_subscribe_shifted. apply (shows_shifted L).
  - apply (shows_finalize HB).
  - apply andb_prop in Hc as [Ha Hb].
    eapply shows_trans; [eapply fuse_obs; [apply tl_identity|apply op_lawful; [exact Ha|apply op_lawful; [exact Hb|exact L]]|apply mean_identity]|].
    eapply shows_trans; [eapply IHo1; [exact Ha|apply op_lawful; [exact Hb|exact L]|apply op_blind, HB]|].
    eapply IHo2; eauto.
  - eapply shows_trans; [eapply fuse_obs; [apply tl_identity|apply op_lawful; [exact Hc|exact L]|apply mean_identity]|].
    eapply IHo; eauto.
Qed.

Theorem pipe_shows {X I E O F} (p : pipe I E O F) :
  pipe_closes_on_error p = true ->
  forall (D : subscriber X O F) adds, lawful D adds -> blind D ->
  forall t, shows_as (pipe_sub p D) D (calls t) (calls (spec_pipe p t)).
Proof.
  induction p as [|I E M G O F o p IH]; cbn [pipe_closes_on_error pipe_sub spec_pipe]; intros Hc D adds L HB t.
  - split; reflexivity.
  - apply andb_prop in Hc as [Ho Hp].
    eapply shows_trans; [eapply op_shows; [exact Ho|apply (pipe_lawful p Hp L)|apply pipe_blind, HB]|].
    eapply IH; eauto.
Qed.

(** The plain observer sees exactly the history. *)
Lemma sink_shows O F (t : trace O F) :
  obs (run (sink O F) (calls t)) = notifs_of t /\
  closed (sink O F) (final (sink O F) (calls t)) = match snd t with FOpen => false | _ => true end.
Proof.
  destruct t as [l f]. unfold run, final. simpl w0. simpl s0. simpl app.
  generalize (@nil nat) as fin.
  induction l as [|a l IH]; intros fin.
  - destruct f; simpl; unfold sink_error, sink_complete; simpl; rewrite ?app_nil_r, ?obs_map_td; auto.
  - change (calls (a :: l, f)) with (CN (Nxt a) :: calls (l, f)).
    rewrite run_from_cons. cbn [step sink sink_step sink_next sd_closed fst snd].
    rewrite obs_app. destruct (IH fin) as [H1 H2]. split; [|exact H2].
    exact (f_equal (cons (NNext a)) H1).
Qed.

Theorem head_shows {I E O F} (p : pipe I E O F) t :
  pipe_closes_on_error p = true ->
  obs (run (head p) (calls t)) = notifs_of (spec_pipe p t) /\
  closed (head p) (final (head p) (calls t)) = match snd (spec_pipe p t) with FOpen => false | _ => true end.
Proof.
  intros Hc. destruct (pipe_shows p Hc (sink_lawful O F) (sink_blind O F) t) as [H1 H2].
  destruct (sink_shows (spec_pipe p t)) as [H3 H4]. unfold head. split; congruence.
Qed.

(** ** Arbitrary call histories
    What of a history matters to the observer: the signals; a drop counts as an
    unsubscribe. *)
Fixpoint signals {I E} (cs : list (call I E)) : list (ncall I E) :=
  match cs with
  | [] => []
  | CN n :: r => n :: signals r
  | CAdd _ :: r => signals r
  | CDrop :: r => Uns :: signals r
  end.

Section AnyHistory.
  Context {X I E : Type}.
  Variable S : subscriber X I E.
  Variable adds : list nat.
  Variable L : lawful S adds.
  Variable B : blind S.

  Lemma closing_rest c cs a : l_inv L a -> closing c = true ->
    obs (snd (run_from S a (c :: cs))) = obs (snd (step S a c)) /\
    closed S (fst (run_from S a (c :: cs))) = true.
  Proof.
    intros H Hc. rewrite run_from_cons; simpl. rewrite obs_app.
    destruct (run_from_closed L cs _ (l_step L a c H) (l_term L a c H Hc)) as (H1 & H2 & _).
    rewrite H2, app_nil_r; auto.
  Qed.

  Lemma run_signals cs a b : l_inv L a -> l_inv L b -> b_rel B a b ->
    obs (snd (run_from S a cs)) = obs (snd (run_from S b (calls (cut (signals cs))))) /\
    closed S (fst (run_from S a cs)) = closed S (fst (run_from S b (calls (cut (signals cs))))).
  Proof.
    revert a b; induction cs as [|c cs IH]; intros a b Ha Hb H.
    - simpl; split; auto. apply (b_closed B), H.
    - destruct c as [[i|e| |]|t|]; cbn [signals cut].
      + change (calls (i :: fst (cut (signals cs)), snd (cut (signals cs))))
          with (CN (Nxt i) :: calls (cut (signals cs))).
        rewrite !run_from_cons; simpl. rewrite !obs_app.
        destruct (b_step B _ _ (CN (Nxt i)) H) as [H1 H2].
        destruct (IH _ _ (l_step L a (CN (Nxt i)) Ha) (l_step L b (CN (Nxt i)) Hb) H2) as [H3 H4].
        rewrite H1, H3; auto.
      + destruct (closing_rest (CN (Err e)) cs a Ha eq_refl) as [H1 H2].
        destruct (closing_rest (CN (Err e)) [] b Hb eq_refl) as [H3 H4].
        change (calls ([], FErr e)) with ([CN (Err e)] : list (call I E)).
        rewrite H1, H2, H3, H4; split; auto. apply (b_step B), H.
      + destruct (closing_rest (CN Cmp) cs a Ha eq_refl) as [H1 H2].
        destruct (closing_rest (CN Cmp) [] b Hb eq_refl) as [H3 H4].
        change (calls (([], FDone) : trace I E)) with ([CN Cmp] : list (call I E)).
        rewrite H1, H2, H3, H4; split; auto. apply (b_step B), H.
      + destruct (closing_rest (CN Uns) cs a Ha eq_refl) as [H1 H2].
        destruct (closing_rest (CN Uns) [] b Hb eq_refl) as [H3 H4].
        change (calls (([], FUnsub) : trace I E)) with ([CN Uns] : list (call I E)).
        rewrite H1, H2, H3, H4; split; auto. apply (b_step B), H.
      + rewrite run_from_cons; simpl. rewrite obs_app.
        destruct (b_add B _ _ t H) as [H1 H2]. rewrite H1. apply IH; auto. apply (l_step L), Ha.
      + destruct (closing_rest CDrop cs a Ha eq_refl) as [H1 H2].
        destruct (closing_rest (CN Uns) [] b Hb eq_refl) as [H3 H4].
        change (calls (([], FUnsub) : trace I E)) with ([CN Uns] : list (call I E)).
        rewrite H1, H2, H3, H4; split; auto.
        rewrite (l_quiet L a CDrop Ha eq_refl), (l_quiet L b (CN Uns) Hb eq_refl); reflexivity.
  Qed.

  Lemma any_history cs :
    obs (run S cs) = obs (run S (calls (cut (signals cs)))) /\
    closed S (final S cs) = closed S (final S (calls (cut (signals cs)))).
  Proof.
    unfold run, final. rewrite !obs_app.
    destruct (run_signals cs _ _ (l_inv0 L) (l_inv0 L) (b_refl B (s0 S))) as [H1 H2]. rewrite H1; auto.
  Qed.
End AnyHistory.

Lemma head_any_history {I E O F} (p : pipe I E O F) cs :
  pipe_closes_on_error p = true ->
  obs (run (head p) cs) = notifs_of (spec_pipe p (cut (signals cs))) /\
  closed (head p) (final (head p) cs) =
    match snd (spec_pipe p (cut (signals cs))) with FOpen => false | _ => true end.
Proof.
  intros Hc. destruct (head_shows p (cut (signals cs)) Hc) as [H1 H2].
  destruct (any_history (head_lawful p Hc) (pipe_blind p (sink_blind O F)) cs) as [H3 H4].
  fold (head p) in H3, H4. rewrite H3, H4; auto.
Qed.

(** into_result may be the first operator *)
Lemma into_result_head {A E O F} (p : pipe (A + E) Empty_set O F) t :
  pipe_closes_on_error p = true ->
  obs (run (head (PCons (OIntoResult A E) p)) (calls t)) =
  notifs_of (spec_pipe p (spec (OIntoResult A E) t)).
Proof.
  intros Hc. unfold head. cbn [pipe_sub op_sub].
  destruct (into_result_run (pipe_sub p (sink O F)) t) as [H1 _]. rewrite H1.
  apply (head_shows p _ Hc).
Qed.

(** ** The state of the downstream subscriber inside a pipeline *)
Fixpoint down_op {X I E O F} (o : oper I E O F) : forall D : subscriber X O F, st (op_sub o D) -> st D :=
  match o in oper I E O F return forall D : subscriber X O F, st (op_sub o D) -> st D with
  | OMap _ f => fun D => snd
  | OFilter _ p => fun D => snd
  | OSkip _ _ n => fun D => snd
  | OTake _ _ n => fun D => snd
  | OFirst _ _ => fun D => snd
  | OElementAt _ i d => fun D => snd
  | OFind _ p => fun D => snd
  | OFindIndex _ p => fun D => snd
  | OIsEmpty _ _ => fun D => snd
  | OScan _ f s => fun D => snd
  | OReduce _ f s => fun D => snd
  | OCount _ _ => fun D => snd
  | OEnumerate _ _ => fun D => snd
  | OPairwise _ _ => fun D => snd
  | OBufferCount _ _ k => fun D => snd
  | OStartWith _ a => fun D s => s
  | OEndWith _ a => fun D => snd
  | OMaterialize _ _ => fun D => snd
  | ODematerialize _ _ => fun D => snd
  | OIntoResult _ _ => fun D => snd
  | OLiftOption _ _ => fun D => snd
  | OLiftResult _ _ => fun D => snd
  | OMapError _ f => fun D => snd
  | OMapInto f g => fun D => snd
  | OMapNeverNext _ _ => fun D => snd
  | OMapNeverError _ _ => fun D => snd
  | OMapNeverBoth _ _ => fun D => snd
  | OErrorBoundary _ => fun D => snd
  | OIdentity _ _ => fun D => snd
  | OTapNext _ f => fun D => snd
  | OTap fn fe fc => fun D => snd
  | OOnNext f => fun D => snd
  | OOnSubscribe l => fun D s => s
  | OFinalize _ _ k => fun D s => s
  | OComposite a b => fun D s => down_op b D (down_op a (op_sub b D) (snd s))
  | OOptSome o => fun D s => down_op o D (snd s)
  | OOptNone _ _ => fun D => snd
  end.
Fixpoint down {X I E O F} (p : pipe I E O F) : forall D : subscriber X O F, st (pipe_sub p D) -> st D :=
  match p in pipe I E O F return forall D : subscriber X O F, st (pipe_sub p D) -> st D with
  | PNil => fun D s => s
  | PCons o p' => fun D s => down p' D (down_op o (pipe_sub p' D) s)
  end.

Lemma down_op_closed X I E O F (o : oper I E O F) :
  forall (D : subscriber X O F) s, closed D (down_op o D s) = true -> closed (op_sub o D) s = true.
Proof.
  induction o; cbn [down_op op_sub denote closed sub_start_with sub_on_subscribe sub_finalize];
    intros D s H; try (rewrite H; apply orb_true_r); auto.
  - apply orb_true_iff; right. apply IHo1, IHo2, H.
  - apply orb_true_iff; right. apply IHo, H.
Qed.
Lemma down_closed X I E O F (p : pipe I E O F) :
  forall (D : subscriber X O F) s, closed D (down p D s) = true -> closed (pipe_sub p D) s = true.
Proof.
  induction p as [|I E M G O F o p IH]; cbn [down pipe_sub]; intros D s H; auto.
  apply down_op_closed, IH, H.
Qed.

(** a downstream that unsubscribes itself on some values *)
Definition until_sink {O F} (stop : O -> bool) : subscriber (notif O F) O F :=
  {| st := sdata; s0 := mkSData false []; w0 := [];
     step := fun d c => match c with
       | CN (Nxt o) => let '(d1, w1) := sink_next d o in
                       if stop o then let '(d2, w2) := sd_unsubscribe d1 in (d2, w1 ++ w2) else (d1, w1)
       | c => sink_step d c
       end;
     closed := sd_closed |}.

Lemma until_sink_lawful O F (stop : O -> bool) : lawful (@until_sink O F stop) [].
Proof.
  refine (@Build_lawful _ _ _ (until_sink stop) [] (fun _ => True) sd_fin _ _ _ _ _ _ _ _ _); simpl; auto.
  - intros [cl fin] c _ Hc; simpl in Hc; subst; destruct c as [[i| | |]| |]; simpl; auto.
    destruct (stop i); simpl; auto.
  - intros [cl fin] t _ Hc; simpl in Hc; subst; auto.
  - intros [cl fin] c _ Hc Ha; simpl in Hc; subst.
    destruct c as [[i|e| |]| |]; simpl in *; try discriminate.
    + destruct (stop i); simpl.
      * right; split; auto. exists [EObs (NNext i)], []; rewrite app_nil_r; repeat split; repeat constructor.
      * left; repeat split; auto. repeat constructor.
    + right; split; auto. exists [EObs (NError e)], []; rewrite app_nil_r; repeat split; repeat constructor.
    + right; split; auto. exists [EObs NComplete], []; rewrite app_nil_r; repeat split; repeat constructor.
    + right; split; auto. exists [], []; rewrite app_nil_r; repeat split; repeat constructor.
    + right; split; auto. exists [], []; rewrite app_nil_r; repeat split; repeat constructor.
  - intros [cl fin] c _ Hc; destruct cl, c as [[]| |]; simpl in *; auto; discriminate.
  - intros [cl fin] c _ Hc; destruct cl, c as [[]| |]; simpl in *; try discriminate; auto using obs_map_td.
  - intros [cl fin] c _ Hcl Hc; simpl in Hcl; subst; destruct c as [[]| |]; simpl in *; try discriminate; auto.
Qed.

(** ** What the tap callbacks see *)
Definition tap_fin {A E} (fe : E -> nat) (fc : nat) (f : fin E) : list (ev (notif A E)) :=
  match f with
  | FErr e => [EEff (fe e); EObs (NError e)]
  | FDone => [EEff fc; EObs NComplete]
  | _ => []
  end.
Definition plain_fin {A E} (f : fin E) : list (ev (notif A E)) :=
  match f with FErr e => [EObs (NError e)] | FDone => [EObs NComplete] | _ => [] end.

Lemma tap_next_log A E (f : A -> nat) (t : trace A E) :
  run (head (PCons (OTapNext E f) PNil)) (calls t) =
  flat_map (fun a => [EEff (f a); EObs (NNext a)]) (fst t) ++ plain_fin (snd t).
Proof.
  destruct t as [l g]. unfold run, head. simpl w0. simpl s0. simpl app.
  change (fst (den_ctor (t_tap_next f) (sink A E))) with (mkSData false []).
  cbn [fst snd].
  induction l as [|a l IH].
  - destruct g; reflexivity.
  - change (calls (a :: l, g)) with (CN (Nxt a) :: calls (l, g)).
    rewrite run_from_cons. cbn [flat_map]. rewrite <- app_assoc, <- IH. reflexivity.
Qed.

Lemma tap_log A E (fn : A -> nat) (fe : E -> nat) fc (t : trace A E) :
  run (head (PCons (OTap fn fe fc) PNil)) (calls t) =
  flat_map (fun a => [EEff (fn a); EObs (NNext a)]) (fst t) ++ tap_fin fe fc (snd t).
Proof.
  destruct t as [l g]. unfold run, head. simpl w0. simpl s0. simpl app.
  change (fst (den_ctor (t_tap fn fe fc) (sink A E))) with (mkSData false []).
  cbn [fst snd].
  induction l as [|a l IH].
  - destruct g; reflexivity.
  - change (calls (a :: l, g)) with (CN (Nxt a) :: calls (l, g)).
    rewrite run_from_cons. cbn [flat_map]. rewrite <- app_assoc, <- IH. reflexivity.
Qed.

(** ** Arithmetic of chunks *)
Lemma firstn_plus A a b (l : list A) : firstn (a + b) l = firstn a l ++ firstn b (skipn a l).
Proof.
  revert l; induction a as [|a IH]; intros l; [reflexivity|].
  destruct l as [|x l]; simpl; [rewrite firstn_nil; reflexivity|]. rewrite IH; reflexivity.
Qed.
Lemma chunks_concat_aux A n (l : list A) m : 0 < n -> m * n <= length l ->
  concat (map (fun j => firstn n (skipn (j * n) l)) (seq 0 m)) = firstn (m * n) l.
Proof.
  intros Hn. induction m as [|m IH]; intros Hm; [reflexivity|].
  rewrite seq_S, map_app, concat_app, IH by lia. simpl. rewrite app_nil_r.
  rewrite (Nat.add_comm n), firstn_plus. reflexivity.
Qed.
Lemma chunks_concat A k (l : list A) : concat (full_chunks (S k) l) ++ chunk_rest (S k) l = l.
Proof.
  unfold full_chunks, chunk_rest.
  assert (Hm : length l / S k * S k <= length l).
  { rewrite Nat.mul_comm. apply Nat.mul_div_le. lia. }
  rewrite chunks_concat_aux by (auto; lia). apply firstn_skipn.
Qed.
Lemma chunks_length A k (l : list A) c : In c (full_chunks (S k) l) -> length c = S k.
Proof.
  unfold full_chunks. rewrite in_map_iff. intros (j & <- & Hj). apply in_seq in Hj.
  rewrite firstn_length_le; auto. rewrite skipn_length.
  assert (Hm : length l / S k * S k <= length l).
  { rewrite Nat.mul_comm. apply Nat.mul_div_le. lia. }
  nia.
Qed.
Lemma chunk_rest_length A k (l : list A) : length (chunk_rest (S k) l) < S k.
Proof.
  unfold chunk_rest. rewrite skipn_length.
  pose proof (Nat.div_mod (length l) (S k) ltac:(lia)) as H.
  pose proof (Nat.mod_upper_bound (length l) (S k) ltac:(lia)). nia.
Qed.

Lemma demat_mat A E (t : trace A E) :
  spec_demat (map NNext (fst t) ++ match snd t with FErr e => [NError e] | FDone => [NComplete] | _ => [] end)
             (absurd_fin match snd t with FErr _ | FDone => FDone | FOpen => FOpen | FUnsub => FUnsub end) = t.
Proof.
  destruct t as [l g]; cbn [fst snd].
  induction l as [|a l IH]; cbn [map app spec_demat].
  - destruct g; try reflexivity.
  - rewrite IH. reflexivity.
Qed.
Lemma lift_into A E (t : trace A E) :
  spec_lift_result (map inl (fst t) ++ match snd t with FErr e => [inr e] | _ => [] end)
    (absurd_fin match snd t with FErr _ => FOpen | FOpen => FOpen | FDone => FDone | FUnsub => FUnsub end) = t.
Proof.
  destruct t as [l g]; cbn [fst snd].
  induction l as [|a l IH]; cbn [map app spec_lift_result].
  - destruct g; reflexivity.
  - rewrite IH. reflexivity.
Qed.

(** ** Lemmas behind the property file *)
Section Facts.
  Context {X I E : Type}.
  Variable S : subscriber X I E.
  Variable adds : list nat.
  Variable L : lawful S adds.

  Lemma run_app cs ds : run S (cs ++ ds) = run S cs ++ snd (run_from S (final S cs) ds).
  Proof. unfold run, final. rewrite run_from_app; simpl. apply app_assoc. Qed.
  Lemma final_app cs ds : final S (cs ++ ds) = fst (run_from S (final S cs) ds).
  Proof. unfold final. rewrite run_from_app; reflexivity. Qed.

  Lemma run_closed_app cs ds : closed S (final S cs) = true ->
    closed S (final S (cs ++ ds)) = true /\ obs (run S (cs ++ ds)) = obs (run S cs).
  Proof.
    intros H. rewrite run_app, final_app, obs_app.
    destruct (run_from_closed L ds _ (final_inv L cs) H) as (H1 & H2 & _).
    rewrite H1, H2, app_nil_r; auto.
  Qed.
  Lemma run_one s c : snd (run_from S s [c]) = snd (step S s c).
  Proof. rewrite run_from_cons; simpl. apply app_nil_r. Qed.
  Lemma run_closed_mute cs c : closed S (final S cs) = true -> c = CN Uns \/ c = CDrop ->
    run S (cs ++ [c]) = run S cs.
  Proof.
    intros H Hc. rewrite run_app, run_one, (l_mute L _ c (final_inv L cs) H), app_nil_r; auto.
    destruct Hc; subst; reflexivity.
  Qed.
  Lemma run_closed_add cs t : closed S (final S cs) = true ->
    run S (cs ++ [CAdd t]) = run S cs ++ map ETd t.
  Proof.
    intros H. rewrite run_app, run_one. destruct (l_closed L _ (CAdd t) (final_inv L cs) H) as [_ H2].
    rewrite H2; reflexivity.
  Qed.
  Lemma added_snoc (cs : list (call I E)) c : is_add c = false -> added (cs ++ [c]) = added cs.
  Proof.
    intros Hc. induction cs as [|x cs IH]; simpl.
    - destruct c; simpl in *; auto; discriminate.
    - destruct x; rewrite ?IH; auto.
  Qed.
  Lemma terminal_closes cs n : (match n with Nxt _ => False | _ => True end) ->
    closed S (final S (cs ++ [CN n])) = true /\ tds (run S (cs ++ [CN n])) = adds ++ added cs.
  Proof.
    intros Hn. assert (Hc : closing (CN n) = true) by (destruct n; simpl in *; tauto).
    pose proof (final_closed_after L cs (CN n) Hc) as H. split; auto.
    rewrite (run_tds L), H, added_snoc by reflexivity. reflexivity.
  Qed.
  Lemma drop_releases cs :
    obs (run S (cs ++ [CDrop])) = obs (run S cs) /\
    tds (run S (cs ++ [CDrop])) = adds ++ added cs /\
    (closed S (final S cs) = true -> run S (cs ++ [CDrop]) = run S cs).
  Proof.
    repeat split.
    - rewrite run_app, run_one, obs_app, (l_quiet L _ CDrop (final_inv L cs) eq_refl), app_nil_r; auto.
    - rewrite (run_tds L), (final_closed_after L cs CDrop eq_refl), added_snoc by reflexivity. reflexivity.
    - intros H. apply run_closed_mute; auto.
  Qed.
End Facts.

Lemma ordered_split X (l pre post : list (ev X)) n : ordered l -> l = pre ++ ETd n :: post -> obs post = [].
Proof.
  intros H ->. induction pre as [|[] pre IH]; simpl in H; try apply H; try apply IH, H.
Qed.

Lemma identity_like {A E O F} (cs : list (call A E)) (o : oper A E A E) (p : pipe A E O F) :
  pipe_closes_on_error p = true ->
  (o = OIdentity A E \/ (exists f, o = OTapNext E f) \/ (exists fn fe fc, o = OTap fn fe fc) \/ o = OOptNone A E
     \/ (exists k, o = OFinalize A E k)) ->
  obs (run (head (PCons o p)) cs) = notifs_of (spec_pipe p (cut (signals cs))).
Proof.
  intros Hok H. destruct (head_any_history (PCons o p) cs) as [H1 _].
  { cbn [pipe_closes_on_error]. rewrite Hok.
    destruct H as [->|[[f ->]|[(fn & fe & fc & ->)|[->|[k ->]]]]]; reflexivity. }
  rewrite H1. destruct H as [->|[[f ->]|[(fn & fe & fc & ->)|[->|[k ->]]]]]; reflexivity.
Qed.

Ltac use_history p cs Hok :=
  etransitivity; [exact (proj1 (head_any_history p cs Hok))|]; cbn [spec_pipe spec]; do 2 f_equal.

Lemma take_seen {A E O F} (cs : list (call A E)) n (p : pipe A E O F) :
  pipe_closes_on_error p = true ->
  obs (run (head (PCons (OTake A E n) p)) cs) =
    notifs_of (spec_pipe p (if n <=? length (fst (cut (signals cs))) then (firstn n (fst (cut (signals cs))), FDone)
                            else (fst (cut (signals cs)), snd (cut (signals cs))))).
Proof.
  intros Hok. use_history (PCons (OTake A E n) p) cs Hok.
  destruct (cut (signals cs)); reflexivity.
Qed.
Lemma first_seen {A E O F} (cs : list (call A E)) (p : pipe A (first_error E) O F) :
  pipe_closes_on_error p = true ->
  obs (run (head (PCons (OFirst A E) p)) cs) = notifs_of (spec_pipe p
      match fst (cut (signals cs)), snd (cut (signals cs)) with
      | a :: _, _ => ([a], FDone)
      | [], FDone => ([], FErr FirstNoNext)
      | [], f => ([], fin_map FirstUpstream f)
      end).
Proof.
  intros Hok. use_history (PCons (OFirst A E) p) cs Hok.
  destruct (cut (signals cs)) as [[] []]; reflexivity.
Qed.
Lemma find_seen {A E O F} (cs : list (call A E)) q (p : pipe A (find_error E) O F) :
  pipe_closes_on_error p = true ->
  obs (run (head (PCons (OFind E q) p)) cs) = notifs_of (spec_pipe p
      match find q (fst (cut (signals cs))), snd (cut (signals cs)) with
      | Some a, _ => ([a], FDone)
      | None, FDone => ([], FErr (match fst (cut (signals cs)) with [] => FindNoNext | _ => FindNoMatch end))
      | None, f => ([], fin_map FindUpstream f)
      end).
Proof.
  intros Hok. use_history (PCons (OFind E q) p) cs Hok.
  unfold find_result. destruct (find q (fst (cut (signals cs)))), (snd (cut (signals cs))); reflexivity.
Qed.
Lemma find_index_seen {A E O F} (cs : list (call A E)) q (p : pipe nat (find_error E) O F) :
  pipe_closes_on_error p = true ->
  obs (run (head (PCons (OFindIndex E q) p)) cs) = notifs_of (spec_pipe p
      match index_of q (fst (cut (signals cs))), snd (cut (signals cs)) with
      | Some a, _ => ([a], FDone)
      | None, FDone => ([], FErr (match fst (cut (signals cs)) with [] => FindNoNext | _ => FindNoMatch end))
      | None, f => ([], fin_map FindUpstream f)
      end).
Proof.
  intros Hok. use_history (PCons (OFindIndex E q) p) cs Hok.
  unfold find_result. destruct (index_of q (fst (cut (signals cs)))), (snd (cut (signals cs))); reflexivity.
Qed.
Lemma is_empty_seen {A E O F} (cs : list (call A E)) (p : pipe bool E O F) :
  pipe_closes_on_error p = true ->
  obs (run (head (PCons (OIsEmpty A E) p)) cs) = notifs_of (spec_pipe p
      match fst (cut (signals cs)), snd (cut (signals cs)) with
      | _ :: _, _ => ([false], FDone)
      | [], FDone => ([true], FDone)
      | [], f => ([], f)
      end).
Proof.
  intros Hok. use_history (PCons (OIsEmpty A E) p) cs Hok.
  destruct (cut (signals cs)) as [[] []]; reflexivity.
Qed.
Lemma reduce_seen {A B E O F} (cs : list (call A E)) (f : B -> A -> B) s (p : pipe B E O F) :
  pipe_closes_on_error p = true ->
  obs (run (head (PCons (OReduce E f s) p)) cs) = notifs_of (spec_pipe p
      (match snd (cut (signals cs)) with FDone => [fold_left f (fst (cut (signals cs))) s] | _ => [] end, snd (cut (signals cs)))).
Proof.
  intros Hok. use_history (PCons (OReduce E f s) p) cs Hok.
  destruct (cut (signals cs)) as [? []]; reflexivity.
Qed.
Lemma count_seen {A E O F} (cs : list (call A E)) (p : pipe nat E O F) :
  pipe_closes_on_error p = true ->
  obs (run (head (PCons (OCount A E) p)) cs) = notifs_of (spec_pipe p
      (match snd (cut (signals cs)) with FDone => [length (fst (cut (signals cs)))] | _ => [] end, snd (cut (signals cs)))).
Proof.
  intros Hok. use_history (PCons (OCount A E) p) cs Hok.
  destruct (cut (signals cs)) as [? []]; reflexivity.
Qed.
Lemma buffer_count_seen {A E O F} (cs : list (call A E)) k (p : pipe (list A) E O F) :
  pipe_closes_on_error p = true ->
  exists bs rest,
    obs (run (head (PCons (OBufferCount A E k) p)) cs) = notifs_of (spec_pipe p
      (bs ++ match snd (cut (signals cs)), rest with FDone, a :: r => [a :: r] | _, _ => [] end, snd (cut (signals cs)))) /\
    concat bs ++ rest = fst (cut (signals cs)) /\
    (forall b, In b bs -> length b = S k) /\
    length rest < S k.
Proof.
  intros Hok. exists (full_chunks (S k) (fst (cut (signals cs)))), (chunk_rest (S k) (fst (cut (signals cs)))).
  split; [exact (proj1 (head_any_history (PCons (OBufferCount A E k) p) cs Hok))|].
  split; [apply chunks_concat|]. split; [apply chunks_length|apply chunk_rest_length].
Qed.
Lemma on_subscribe_seen A E O F (l : list (ncall A E)) (p : pipe A E O F) cs :
  pipe_closes_on_error p = true ->
  obs (run (head (PCons (OOnSubscribe l) p)) cs) = notifs_of (spec_pipe p (cut (l ++ signals cs))).
Proof.
  intros Hok. use_history (PCons (OOnSubscribe l) p) cs Hok.
  rewrite !cut_app, cut_ncs; reflexivity.
Qed.
Lemma mat_demat_seen A E O F (p : pipe A E O F) cs :
  pipe_closes_on_error p = true ->
  obs (run (head (PCons (OMaterialize A E) (PCons (ODematerialize A E) p))) cs) = obs (run (head p) cs).
Proof.
  intros Hok.
  rewrite (proj1 (head_any_history (PCons (OMaterialize A E) (PCons (ODematerialize A E) p)) cs Hok)).
  rewrite (proj1 (head_any_history p cs Hok)). cbn [spec_pipe spec fst snd]. rewrite demat_mat. reflexivity.
Qed.
Lemma materialize_seen A E (cs : list (call A E)) :
  obs (run (head (PCons (OMaterialize A E) PNil)) cs) =
  map NNext (notifs_of (cut (signals cs))) ++ match snd (cut (signals cs)) with FErr _ | FDone => [NComplete] | _ => [] end.
Proof.
  rewrite (proj1 (head_any_history (PCons (OMaterialize A E) PNil) cs eq_refl)).
  destruct (cut (signals cs)) as [l g]. cbn [spec_pipe spec fst snd]. unfold notifs_of; cbn [fst snd].
  rewrite !map_app, map_map. destruct g; cbn; rewrite ?app_nil_r, <- ?app_assoc, ?map_map; reflexivity.
Qed.
Lemma demat_ends A E O F (p : pipe A E O F) l rest (n : notif A E) cs :
  pipe_closes_on_error p = true ->
  (n = NComplete \/ exists e, n = NError e) ->
  signals cs = map (fun a => Nxt (NNext a)) l ++ Nxt n :: rest ->
  obs (run (head (PCons (ODematerialize A E) p)) cs) =
  notifs_of (spec_pipe p (l, match n with NError e => FErr e | _ => FDone end)).
Proof.
  intros Hok Hn Hs. use_history (PCons (ODematerialize A E) p) cs Hok. rewrite Hs. clear Hs.
  induction l as [|a l IH]; cbn [map app cut fst snd spec_demat].
  - destruct Hn as [->|[e ->]]; reflexivity.
  - rewrite IH. reflexivity.
Qed.
Lemma into_lift_seen A E O F (p : pipe A E O F) (t : trace A E) :
  pipe_closes_on_error p = true ->
  obs (run (head (PCons (OIntoResult A E) (PCons (OLiftResult A E) p))) (calls t)) = obs (run (head p) (calls t)).
Proof.
  intros Hok. rewrite (into_result_head (PCons (OLiftResult A E) p) t Hok).
  rewrite (proj1 (head_shows p t Hok)). cbn [spec_pipe spec fst snd]. rewrite lift_into. reflexivity.
Qed.
Lemma composite_seen I E M G N H O F (a : oper I E M G) (b : oper M G N H) (p : pipe N H O F) cs :
  pipe_closes_on_error (PCons a (PCons b p)) = true ->
  obs (run (head (PCons (OComposite a b) p)) cs) = obs (run (head (PCons a (PCons b p))) cs).
Proof.
  intros Hok. rewrite (proj1 (head_any_history _ cs Hok)).
  assert (Hok' : pipe_closes_on_error (PCons (OComposite a b) p) = true).
  { cbn in *. rewrite <- andb_assoc; exact Hok. }
  rewrite (proj1 (head_any_history _ cs Hok')). reflexivity.
Qed.
Lemma down_silent {X I E O F} (p : pipe I E O F) (D : subscriber X O F) adds cs ds :
  pipe_closes_on_error p = true -> lawful D adds ->
  let S := pipe_sub p D in
  closed D (down p D (final S cs)) = true ->
  closed S (final S (cs ++ ds)) = true /\ obs (run S (cs ++ ds)) = obs (run S cs).
Proof.
  intros Hok L S H. apply (run_closed_app (pipe_lawful p Hok L)). apply down_closed, H.
Qed.
Lemma into_result_open_after_error :
  exists cs : list (call nat bool), snd (cut (signals cs)) = FErr true /\
    closed (head (PCons (OIntoResult nat bool) PNil)) (final (head (PCons (OIntoResult nat bool) PNil)) cs) = false /\
    obs (run (head (PCons (OIntoResult nat bool) PNil)) cs) = [NNext (inl 1); NNext (inr true); NNext (inl 2)].
Proof. exists [CN (Nxt 1); CN (Err true); CN (Nxt 2)]. vm_compute; auto. Qed.
Lemma take_into_result_emits :
  exists cs ds : list (call nat bool),
    let p := PCons (OTake nat bool 3) (PCons (OIntoResult nat bool) PNil) in
    closed (head p) (final (head p) cs) = true /\ obs (run (head p) (cs ++ ds)) <> obs (run (head p) cs).
Proof.
  exists [CN (Nxt 1); CN (Err true)], [CN (Nxt 2)]. split; [vm_compute; reflexivity|].
  vm_compute. discriminate.
Qed.
