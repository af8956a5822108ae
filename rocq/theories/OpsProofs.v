(** Lawfulness and list-level meaning of the operators. *)
From Verif Require Import Base SubscrModel SubscrProofs OpsModel OpsSpec.
Set Implicit Arguments.

(** ** Lawful transducers *)
Lemma simple_tlaw I E O F (Q : Type) (q0 : Q)
  (n : Q -> bool -> I -> Q * list (act O F))
  (e : Q -> bool -> E -> Q * list (act O F))
  (c : Q -> bool -> Q * list (act O F))
  (dn : Q -> bool) :
  dn q0 = false ->
  (forall q b i, dn (fst (n q b i)) = true -> dn q = true \/ b = true \/ acts_term (snd (n q b i)) = true) ->
  (forall q b x, dn q = true \/ b = true \/ acts_term (snd (e q b x)) = true) ->
  (forall q b, dn q = true \/ b = true \/ acts_term (snd (c q b)) = true) ->
  tlaw (simple_trans q0 n e c).
Proof.
  intros H0 Hn He Hc.
  refine (@Build_tlaw _ _ _ _ (simple_trans q0 n e c) dn _ _ _ _ _ _ _ _); simpl; auto; try discriminate.
  - intros b H; congruence.
  - intros q [|]; reflexivity.
Qed.

Ltac simple_law dn :=
  apply (@simple_tlaw _ _ _ _ _ _ _ _ _ dn); cbn; auto.

Lemma tl_map A B E (f : A -> B) : tlaw (@t_map A B E f).
Proof. simple_law (fun _ : unit => false). Qed.
Lemma tl_filter A E p : tlaw (@t_filter A E p).
Proof. simple_law (fun _ : nat => false). Qed.
Lemma tl_skip A E n : tlaw (@t_skip A E n).
Proof. simple_law (fun _ : nat => false). Qed.
Lemma tl_first A E : tlaw (@t_first A E).
Proof.
  simple_law (fun b : bool => b); intros [|]; cbn; auto.
Qed.
Lemma tl_find A E p : tlaw (@t_find A E p).
Proof.
  simple_law (fun b : bool * bool => fst b).
  - intros [m n] b a; cbn. destruct m, (p a); cbn; auto.
  - intros [m n] b; cbn. destruct m, n; cbn; auto.
Qed.
Lemma tl_find_index A E p : tlaw (@t_find_index A E p).
Proof.
  simple_law (fun b : bool * nat => fst b).
  - intros [m n] b a; cbn. destruct m, (p a); cbn; auto.
  - intros [m n] b; cbn. destruct m; cbn; auto. destruct (n =? 0); cbn; auto.
Qed.
Lemma tl_is_empty A E : tlaw (@t_is_empty A E).
Proof. simple_law (fun _ : unit => false). Qed.
Lemma tl_scan A B E f s : tlaw (@t_scan A B E f s).
Proof. simple_law (fun _ : B => false). Qed.
Lemma tl_reduce A B E f s : tlaw (@t_reduce A B E f s).
Proof. simple_law (fun _ : B => false). Qed.
Lemma tl_count A E : tlaw (@t_count A E).
Proof. simple_law (fun _ : nat => false). Qed.
Lemma tl_enumerate A E : tlaw (@t_enumerate A E).
Proof. simple_law (fun _ : nat => false). Qed.
Lemma tl_pairwise A E : tlaw (@t_pairwise A E).
Proof. simple_law (fun _ : option A => false). Qed.
Lemma tl_buffer_count A E k : tlaw (@t_buffer_count A E k).
Proof.
  simple_law (fun _ : option (list A) => false).
  intros [l|] b; cbn; auto.
Qed.
Lemma tl_end_with A E a : tlaw (@t_end_with A E a).
Proof. simple_law (fun _ : option A => false). intros [x|] b; cbn; auto. Qed.
Lemma tl_materialize A E : tlaw (@t_materialize A E).
Proof. simple_law (fun _ : unit => false). Qed.
Lemma tl_dematerialize A E : tlaw (@t_dematerialize A E).
Proof. simple_law (fun _ : unit => false). intros q b []. Qed.
Lemma tl_lift_option A E : tlaw (@t_lift_option A E).
Proof. simple_law (fun _ : unit => false). Qed.
Lemma tl_lift_result A E : tlaw (@t_lift_result A E).
Proof. simple_law (fun _ : unit => false). intros q b []. Qed.
Lemma tl_map_error A E F f : tlaw (@t_map_error A E F f).
Proof.
  simple_law (fun b : bool => negb b).
  intros [|] [|] x; cbn; auto.
Qed.
Lemma tl_map_into A B E F f g : tlaw (@t_map_into A B E F f g).
Proof. simple_law (fun _ : unit => false). Qed.
Lemma tl_mnn B E : tlaw (@t_map_never_next B E).
Proof. simple_law (fun _ : unit => false). Qed.
Lemma tl_mne A F : tlaw (@t_map_never_error A F).
Proof. simple_law (fun _ : unit => false). intros q b []. Qed.
Lemma tl_mnb B F : tlaw (@t_map_never_both B F).
Proof. simple_law (fun _ : unit => false). intros q b []. Qed.
Lemma tl_error_boundary A : tlaw (@t_error_boundary A).
Proof. simple_law (fun _ : unit => false). intros q b []. Qed.
Lemma tl_identity A E : tlaw (@t_identity A E).
Proof. simple_law (fun _ : unit => false). Qed.
Lemma tl_tap_next A E f : tlaw (@t_tap_next A E f).
Proof. simple_law (fun _ : unit => false). Qed.
Lemma tl_tap A E fn fe fc : tlaw (@t_tap A E fn fe fc).
Proof. simple_law (fun _ : bool => false); intros [|]; cbn; auto. Qed.
Lemma tl_on_next A E f : tlaw (@t_on_next A E f).
Proof. simple_law (fun _ : unit => false). Qed.

Lemma tl_take A E n : tlaw (@t_take A E n).
Proof.
  refine (@Build_tlaw _ _ _ _ (@t_take A E n) snd _ _ _ _ _ _ _ _); cbn; auto.
  - intros [[|c] cl] b a; cbn; auto.
    destruct (c - 0 =? 0), cl; cbn; auto.
  - intros [c cl] [|]; cbn; auto. destruct cl; cbn; auto.
  - intros [c cl] [|]; cbn; auto; destruct cl; reflexivity.
  - intros [c cl] [|]; cbn; auto; destruct cl; reflexivity.
Qed.

Lemma tl_element_at A E i d : tlaw (@t_element_at A E i d).
Proof.
  refine (@Build_tlaw _ _ _ _ (@t_element_at A E i d) snd _ _ _ _ _ _ _ _); cbn; auto.
  - intros [c cl] b a; cbn. destruct cl, b; cbn; auto; destruct (c =? i); cbn; auto.
  - intros [c cl] [|] e; cbn; destruct cl; cbn; auto.
  - intros [c cl] [|]; cbn; destruct cl, d; cbn; auto.
  - intros [c cl] [|]; cbn; destruct cl; cbn; auto.
  - intros [c cl] [|]; cbn; auto; destruct cl; reflexivity.
  - intros [c cl] [|]; cbn; auto; destruct cl; reflexivity.
Qed.

(** ** Operators that return the destination itself after talking to it *)
Section Shift.
  Context {X A E : Type}.
  Variable D : subscriber X A E.

  Definition shifted (r : st D * list (ev X)) : subscriber X A E :=
    {| st := st D; s0 := fst r; w0 := w0 D ++ snd r; step := step D; closed := closed D |}.

  Lemma shifted_run r cs :
    run (shifted r) cs = w0 D ++ snd r ++ snd (run_from D (fst r) cs).
  Proof.
    unfold run. simpl. rewrite <- app_assoc. f_equal. f_equal. f_equal.
    generalize (fst r). induction cs as [|c cs IH]; intros s; [reflexivity|].
    simpl. destruct (step D s c) as [s1 w1]. rewrite IH; reflexivity.
  Qed.
  Lemma shifted_final r cs : closed (shifted r) (final (shifted r) cs) = closed D (fst (run_from D (fst r) cs)).
  Proof.
    unfold final. simpl. f_equal. f_equal. generalize (fst r).
    induction cs as [|c cs IH]; intros s; [reflexivity|].
    simpl. destruct (step D s c) as [s1 w1]. rewrite IH; reflexivity.
  Qed.

  Variable adds : list nat.
  Variable L : lawful D adds.

  Lemma shifted_lawful r more :
    l_inv L (fst r) ->
    (closed D (fst r) = false /\ Forall not_td (w0 D ++ snd r) /\ l_pend L (fst r) = adds ++ more)
    \/ (closed D (fst r) = true /\ tds (w0 D ++ snd r) = adds ++ more /\ ordered (w0 D ++ snd r)) ->
    lawful (shifted r) (adds ++ more).
  Proof.
    intros Hi H.
    exact (@Build_lawful _ _ _ (shifted r) (adds ++ more) (l_inv L) (l_pend L) Hi H
             (l_step L) (l_closed L) (l_open_add L) (l_open L) (l_term L) (l_quiet L) (l_mute L)).
  Qed.

  (** a non-add call from the initial state *)
  Lemma shifted_calls_lawful (l : list (ncall A E)) :
    lawful (shifted (run_from D (s0 D) (map (fun n => CN n) l))) adds.
  Proof.
    rewrite <- (app_nil_r adds).
    set (cs := map (fun n => CN n) l : list (call A E)).
    assert (Hadd : added cs = []) by (subst cs; induction l; simpl; auto).
    pose proof (l_inv0 L) as Hi0.
    apply shifted_lawful.
    - apply run_from_inv, Hi0.
    - rewrite app_nil_r.
      destruct (l_init L) as [(Hc & Hw & Hp)|(Hc & Ht & Ho)].
      + destruct (run_from_open L cs (s0 D) Hi0 Hc) as [Htd Hpd].
        destruct (closed D (fst (run_from D (s0 D) cs))) eqn:Ec.
        * right; split; auto. rewrite tds_app, (not_td_tds Hw), Htd, Hadd, app_nil_r; simpl; split; auto.
          apply ordered_not_td; auto. apply (run_from_ordered L); auto.
        * left; split; auto. rewrite Hadd, app_nil_r in Hpd. split; [|rewrite Hpd; auto].
          apply Forall_app; split; auto.
          clear - Htd. induction (snd (run_from D (s0 D) cs)) as [|[] w IH]; simpl in *;
            try discriminate; constructor; simpl; auto.
      + destruct (run_from_closed L cs (s0 D) Hi0 Hc) as (H1 & H2 & H3).
        right; split; auto. rewrite tds_app, Ht, <- (tds_vis (snd _)), H3, Hadd; simpl. split; [apply app_nil_r|].
        apply ordered_app_silent; auto.
  Qed.
End Shift.

Lemma start_with_shifted X A E a (D : subscriber X A E) :
  sub_start_with a D = shifted D (step D (s0 D) (CN (Nxt a))).
Proof. reflexivity. Qed.
Lemma start_with_shifted' X A E a (D : subscriber X A E) :
  sub_start_with a D = shifted D (run_from D (s0 D) (map (fun n => CN n) [Nxt a])).
Proof.
  rewrite start_with_shifted. f_equal. simpl.
  destruct (step D (s0 D) (CN (Nxt a))) as [d w]; simpl. rewrite app_nil_r; reflexivity.
Qed.
Lemma on_subscribe_shifted X A E l (D : subscriber X A E) :
  sub_on_subscribe l D = shifted D (run_from D (s0 D) (map (fun n => CN n) l)).
Proof. reflexivity. Qed.
Lemma finalize_shifted X A E k (D : subscriber X A E) :
  sub_finalize k D = shifted D (step D (s0 D) (CAdd [k])).
Proof. reflexivity. Qed.

Lemma finalize_lawful X A E k (D : subscriber X A E) adds :
  lawful D adds -> lawful (sub_finalize k D) (adds ++ [k]).
Proof.
  intros L. rewrite finalize_shifted. apply (shifted_lawful L).
  - apply (l_step L), (l_inv0 L).
  - pose proof (l_inv0 L) as Hi0.
    destruct (l_init L) as [(Hc & Hw & Hp)|(Hc & Ht & Ho)].
    + destruct (l_open_add L (s0 D) [k] Hi0 Hc) as (H1 & H2 & H3).
      left. rewrite H2, app_nil_r, H3, Hp; auto.
    + destruct (l_closed L (s0 D) (CAdd [k]) Hi0 Hc) as (H1 & H2).
      right. rewrite tds_app, Ht, H2, tds_map. repeat split; auto.
      apply ordered_app_silent; auto.
Qed.

Theorem op_lawful {X I E O F} (o : oper I E O F) :
  closes_on_error o = true ->
  forall (D : subscriber X O F) adds, lawful D adds -> lawful (op_sub o D) (adds ++ op_adds o).
Proof.
  induction o; simpl; intros Hc D adds L; rewrite ?app_nil_r; try discriminate;
    try (eapply denote_lawful; [|exact L];
         first [apply tl_map|apply tl_filter|apply tl_skip|apply tl_take|apply tl_first
               |apply tl_element_at|apply tl_find|apply tl_find_index|apply tl_is_empty
               |apply tl_scan|apply tl_reduce|apply tl_count|apply tl_enumerate|apply tl_pairwise
               |apply tl_buffer_count|apply tl_end_with|apply tl_materialize|apply tl_dematerialize
               |apply tl_lift_option|apply tl_lift_result|apply tl_map_error|apply tl_map_into
               |apply tl_mnn|apply tl_mne|apply tl_mnb|apply tl_error_boundary|apply tl_tap_next
               |apply tl_tap|apply tl_on_next|apply tl_identity]; fail).
  - rewrite start_with_shifted'. apply shifted_calls_lawful, L.
  - rewrite on_subscribe_shifted. apply shifted_calls_lawful, L.
  - apply finalize_lawful, L.
  - apply andb_prop in Hc as [H1 H2].
    eapply denote_lawful; [apply tl_identity|]. rewrite app_assoc. apply IHo1; auto.
  - eapply denote_lawful; [apply tl_identity|]. apply IHo; auto.
Qed.

Theorem pipe_lawful {X I E O F} (p : pipe I E O F) :
  pipe_closes_on_error p = true ->
  forall (D : subscriber X O F) adds, lawful D adds -> lawful (pipe_sub p D) (adds ++ pipe_adds p).
Proof.
  induction p as [|I E M G O F o p IH]; simpl; intros Hc D adds L.
  - rewrite app_nil_r; exact L.
  - apply andb_prop in Hc as [H1 H2]. rewrite app_assoc. apply op_lawful; auto.
Qed.

Lemma head_lawful {I E O F} (p : pipe I E O F) :
  pipe_closes_on_error p = true -> lawful (head p) (pipe_adds p).
Proof. intros H. exact (pipe_lawful p H (sink_lawful O F)). Qed.

(** ** Grammar: holds for every pipeline, also unlawful ones *)
Definition gstep {A E} (g : bool) (n : notif A E) : option bool :=
  if g then None else match n with NNext _ => Some false | _ => Some true end.
Fixpoint grun {A E} (g : bool) (l : list (notif A E)) : option bool :=
  match l with
  | [] => Some g
  | n :: l' => match gstep g n with Some g' => grun g' l' | None => None end
  end.

Lemma grun_grammar A E (l : list (notif A E)) g' : grun false l = Some g' -> grammar l.
Proof.
  revert g'; induction l as [|[a|e|] l IH]; simpl; intros g' H; auto.
  - apply (IH _ H).
  - destruct l; simpl in H; [reflexivity|discriminate].
  - destruct l; simpl in H; [reflexivity|discriminate].
Qed.
Lemma grun_app A E (a b : list (notif A E)) g :
  grun g (a ++ b) = match grun g a with Some g' => grun g' b | None => None end.
Proof. revert g; induction a as [|n a IH]; simpl; intros g; auto. destruct (gstep g n); auto. Qed.

(** [grel S g s]: a ghost bit [g] ("terminal seen") is consistent with state [s]. *)
Record glaw {A E I G} (S : subscriber (notif A E) I G) : Type := {
  g_rel : bool -> st S -> Prop;
  g_init : exists g, grun false (obs (w0 S)) = Some g /\ g_rel g (s0 S);
  g_step : forall g s c, g_rel g s ->
     exists g', grun g (obs (snd (step S s c))) = Some g' /\ g_rel g' (fst (step S s c))
}.

Lemma sink_glaw O F : glaw (sink O F).
Proof.
  refine (@Build_glaw _ _ _ _ (sink O F) (fun g d => g = true -> sd_closed d = true) _ _).
  - exists false; simpl; auto.
  - intros g [cl fin] c H; simpl in *.
    destruct c as [[]| |], cl; simpl; rewrite ?obs_map_td; simpl;
      try (exists g; simpl; split; auto; fail);
      try (destruct g; [specialize (H eq_refl); discriminate|]; simpl; rewrite ?obs_map_td; simpl; eauto; fail).
Qed.

Lemma denote_glaw A E I G O F (T : trans I G O F) (D : subscriber (notif A E) O F) :
  glaw D -> glaw (denote T D).
Proof.
  intros L.
  assert (Hacts : forall l g d, g_rel L g d ->
     exists g', grun g (obs (snd (exec_acts D d l))) = Some g' /\ g_rel L g' (fst (exec_acts D d l))).
  { induction l as [|a l IH]; intros g d H.
    - exists g; split; [reflexivity|exact H].
    - rewrite exec_acts_cons; simpl. rewrite obs_app, grun_app.
      assert (Ha : exists g', grun g (obs (snd (exec_act D d a))) = Some g' /\ g_rel L g' (fst (exec_act D d a))).
      { destruct a as [n|n|n]; simpl.
        - apply (g_step L), H.
        - destruct (closed D d); simpl; eauto. apply (g_step L), H.
        - eauto. }
      destruct Ha as (g1 & E1 & H1). rewrite E1. apply IH, H1. }
  refine (@Build_glaw _ _ _ _ (denote T D) (fun g s => g_rel L g (snd s)) _ _).
  - destruct (g_init L) as (g & Eg & Hg). simpl. unfold den_ctor.
    destruct (Hacts (o_ctor T) g _ Hg) as (g' & Eg' & Hg'). exists g'.
    rewrite obs_app, grun_app, Eg; auto.
  - intros g [q d] c H; simpl in H. simpl.
    destruct c as [n|t|]; simpl.
    + rewrite den_n_eq; simpl. apply Hacts, H.
    + destruct (g_step L g d (CAdd t) H) as (g' & Eg' & Hg').
      destruct (step D d (CAdd t)) as [d' w]; simpl in *; eauto.
    + rewrite den_drop_eq; simpl.
      destruct (Hacts (snd (on_drop T q (closed D d))) g d H) as (g1 & E1 & H1).
      destruct (g_step L g1 _ CDrop H1) as (g2 & E2 & H2).
      exists g2. rewrite obs_app, grun_app, E1; auto.
Qed.

Lemma run_from_glaw A E I G (S : subscriber (notif A E) I G) (L : glaw S) cs g s :
  g_rel L g s ->
  exists g', grun g (obs (snd (run_from S s cs))) = Some g' /\ g_rel L g' (fst (run_from S s cs)).
Proof.
  revert g s; induction cs as [|c cs IH]; intros g s H; [simpl; eauto|].
  rewrite run_from_cons; simpl. rewrite obs_app, grun_app.
  destruct (g_step L g s c H) as (g1 & E1 & H1). rewrite E1. apply IH, H1.
Qed.

Lemma shifted_glaw A E I G (D : subscriber (notif A E) I G) r g0 g1 (L : glaw D) :
  grun false (obs (w0 D)) = Some g0 -> grun g0 (obs (snd r)) = Some g1 -> g_rel L g1 (fst r) ->
  glaw (shifted D r).
Proof.
  intros H0 H1 H2.
  refine (@Build_glaw _ _ _ _ (shifted D r) (g_rel L) _ _).
  - exists g1; simpl. rewrite obs_app, grun_app, H0; auto.
  - exact (g_step L).
Qed.

(** [glaw] lives in Type only for the projections; existence is all that matters. *)
Lemma op_glaw A E' I E O F (o : oper I E O F) :
  forall (D : subscriber (notif A E') O F), inhabited (glaw D) -> inhabited (glaw (op_sub o D)).
Proof.
  induction o; simpl; intros D [L]; try (constructor; apply denote_glaw; exact L).
  - rewrite start_with_shifted.
    destruct (g_init L) as (g & Eg & Hg).
    destruct (g_step L g _ (CN (Nxt a)) Hg) as (g1 & E1 & H1).
    constructor; eapply shifted_glaw; eauto.
  - rewrite on_subscribe_shifted.
    destruct (g_init L) as (g & Eg & Hg).
    destruct (run_from_glaw L (map (fun n => CN n) l) g _ Hg) as (g1 & E1 & H1).
    constructor; eapply shifted_glaw; eauto.
  - rewrite finalize_shifted.
    destruct (g_init L) as (g & Eg & Hg).
    destruct (g_step L g _ (CAdd [k]) Hg) as (g1 & E1 & H1).
    constructor; eapply shifted_glaw; eauto.
  - destruct (IHo2 D (inhabits L)) as [L2]. destruct (IHo1 _ (inhabits L2)) as [L1].
    constructor; apply denote_glaw, L1.
  - destruct (IHo D (inhabits L)) as [L1]. constructor; apply denote_glaw, L1.
Qed.

Lemma pipe_glaw A E' I E O F (p : pipe I E O F) :
  forall (D : subscriber (notif A E') O F), inhabited (glaw D) -> inhabited (glaw (pipe_sub p D)).
Proof.
  induction p as [|I E M G O F o p IH]; simpl; intros D H; auto. apply op_glaw, IH, H.
Qed.

Theorem head_grammar {I E O F} (p : pipe I E O F) (cs : list (call I E)) :
  grammar (obs (run (head p) cs)).
Proof.
  destruct (pipe_glaw p (inhabits (sink_glaw O F))) as [L].
  change (pipe_sub p (sink O F)) with (head p) in L.
  destruct (g_init L) as (g & Eg & Hg).
  destruct (run_from_glaw L cs g _ Hg) as (g1 & E1 & _).
  apply (@grun_grammar _ _ _ g1). unfold run. rewrite obs_app, grun_app, Eg; auto.
Qed.
