(** The list-level meaning of operators, and of pipelines by composition. *)
From Verif Require Import Base SubscrModel SubscrProofs OpsModel OpsSpec OpsProofs.
Set Implicit Arguments.

Arguments final : simpl never.

(** ** Reactions as histories *)
Definition strip {O F} (a : act O F) : list (ncall O F) :=
  match a with Do n => [n] | IfOpen n => [n] | Emit _ => [] end.
Definition acut {O F} (l : list (act O F)) : trace O F := cut (flat_map strip l).

Definition tapp {O F} (a b : trace O F) : trace O F :=
  match snd a with FOpen => (fst a ++ fst b, snd b) | _ => a end.

Lemma cut_app A E (a b : list (ncall A E)) : cut (a ++ b) = tapp (cut a) (cut b).
Proof.
  induction a as [|[x|e| |] a IH]; simpl; try reflexivity.
  - unfold tapp; simpl. destruct (cut b); reflexivity.
  - rewrite IH. unfold tapp; simpl. destruct (cut a) as [l []]; reflexivity.
Qed.
Lemma cut_ncs A E (t : trace A E) : cut (ncs t) = t.
Proof.
  destruct t as [l f]; unfold ncs; simpl. induction l as [|a l IH]; simpl.
  - destruct f; reflexivity.
  - rewrite IH; reflexivity.
Qed.
Lemma tapp_assoc O F (a b c : trace O F) : tapp (tapp a b) c = tapp a (tapp b c).
Proof.
  destruct a as [la []], b as [lb []]; unfold tapp; simpl; rewrite ?app_assoc; reflexivity.
Qed.
Lemma tapp_open O F (l : list O) (b : trace O F) : tapp (l, FOpen) b = (l ++ fst b, snd b).
Proof. reflexivity. Qed.

(** the list-level run of a transducer *)
Fixpoint crun {I E O F} (T : trans I E O F) (q : oq T) (ns : list (ncall I E)) : trace O F :=
  match ns with
  | [] => ([], FOpen)
  | n :: r => tapp (acut (snd (react T q false n))) (crun T (fst (react T q false n)) r)
  end.

Definition mean {I E O F} (T : trans I E O F) (t : trace I E) : trace O F :=
  tapp (acut (o_ctor T)) (crun T (o_init T false) (ncs t)).

Section Fuse.
  Context {X O F : Type}.
  Variable D : subscriber X O F.
  Variable adds : list nat.
  Variable L : lawful D adds.

  (** same visible events and same closedness *)
  Definition same {S : Type} (cl : S -> bool) (a : S * list (ev X)) (b : st D * list (ev X)) : Prop :=
    vis (snd a) = vis (snd b) /\ cl (fst a) = closed D (fst b).

  Definition ncall_run (d : st D) (ns : list (ncall O F)) := run_from D d (map (fun n => CN n) ns).

  Lemma ncall_run_closed ns d : l_inv L d -> closed D d = true ->
    vis (snd (ncall_run d ns)) = [] /\ closed D (fst (ncall_run d ns)) = true.
  Proof.
    intros H Hc. destruct (run_from_closed L (map (fun n => CN n) ns) d H Hc) as (H1 & _ & H2).
    split; auto. unfold ncall_run. rewrite H2.
    clear. induction ns; simpl; auto.
  Qed.

  Lemma ncall_run_cons d n ns :
    ncall_run d (n :: ns) =
    (fst (ncall_run (fst (step D d (CN n))) ns),
     snd (step D d (CN n)) ++ snd (ncall_run (fst (step D d (CN n))) ns)).
  Proof. unfold ncall_run. simpl map. rewrite run_from_cons; reflexivity. Qed.

  (** nothing after the first terminal matters *)
  Lemma run_cut ns d : l_inv L d ->
    vis (snd (ncall_run d ns)) = vis (snd (ncall_run d (ncs (cut ns)))) /\
    closed D (fst (ncall_run d ns)) = closed D (fst (ncall_run d (ncs (cut ns)))).
  Proof.
    revert d; induction ns as [|n ns IH]; intros d H; [auto|].
    rewrite ncall_run_cons; simpl.
    assert (Hi : l_inv L (fst (step D d (CN n)))) by apply (l_step L), H.
    destruct n as [x|e| |]; simpl.
    - change (ncs (x :: fst (cut ns), snd (cut ns))) with (Nxt x :: ncs (cut ns)).
      rewrite ncall_run_cons; simpl. destruct (IH _ Hi) as [H1 H2].
      rewrite !vis_app, H1, H2; auto.
    - change (ncs (([], FErr e) : trace O F)) with ([Err e] : list (ncall O F)).
      rewrite ncall_run_cons; simpl. rewrite !vis_app.
      destruct (ncall_run_closed ns _ Hi (l_term L d (CN (Err e)) H eq_refl)) as [H1 H2].
      rewrite H1, H2; simpl. rewrite (l_term L d (CN (Err e)) H eq_refl); auto.
    - change (ncs (([], FDone) : trace O F)) with ([Cmp] : list (ncall O F)).
      rewrite ncall_run_cons; simpl. rewrite !vis_app.
      destruct (ncall_run_closed ns _ Hi (l_term L d (CN Cmp) H eq_refl)) as [H1 H2].
      rewrite H1, H2; simpl. rewrite (l_term L d (CN Cmp) H eq_refl); auto.
    - change (ncs (([], FUnsub) : trace O F)) with ([Uns] : list (ncall O F)).
      rewrite ncall_run_cons; simpl. rewrite !vis_app.
      destruct (ncall_run_closed ns _ Hi (l_term L d (CN Uns) H eq_refl)) as [H1 H2].
      rewrite H1, H2; simpl. rewrite (l_term L d (CN Uns) H eq_refl); auto.
  Qed.

  (** a list of actions shows the same as its stripped calls *)
  Lemma exec_acts_same l d : l_inv L d ->
    same (closed D) (exec_acts D d l) (ncall_run d (flat_map strip l)).
  Proof.
    revert d; induction l as [|a l IH]; intros d H; [split; reflexivity|].
    rewrite exec_acts_cons. unfold same; simpl. rewrite vis_app.
    destruct a as [n|n|n]; simpl.
    - rewrite ncall_run_cons; simpl. rewrite vis_app.
      destruct (IH _ (l_step L d (CN n) H)) as [H1 H2]. rewrite H1, H2; auto.
    - destruct (closed D d) eqn:Ec; simpl.
      + destruct (IH d H) as [H1 H2].
        destruct (ncall_run_closed (flat_map strip l) _ H Ec) as [H3 H4].
        destruct (ncall_run_closed (n :: flat_map strip l) _ H Ec) as [H5 H6].
        rewrite H1, H2, H3, H4, H5, H6; auto.
      + rewrite ncall_run_cons; simpl. rewrite vis_app.
        destruct (IH _ (l_step L d (CN n) H)) as [H1 H2]. rewrite H1, H2; auto.
    - apply (IH d H).
  Qed.

  Lemma ncall_run_app d a b :
    ncall_run d (a ++ b) =
    (fst (ncall_run (fst (ncall_run d a)) b), snd (ncall_run d a) ++ snd (ncall_run (fst (ncall_run d a)) b)).
  Proof. unfold ncall_run. rewrite map_app, run_from_app; reflexivity. Qed.

  Lemma ncall_run_inv d ns : l_inv L d -> l_inv L (fst (ncall_run d ns)).
  Proof. apply run_from_inv. Qed.

  (** running the concatenation of histories *)
  Lemma run_tapp d a b : l_inv L d ->
    vis (snd (ncall_run d (ncs (tapp a b)))) =
      vis (snd (ncall_run d (ncs a))) ++ vis (snd (ncall_run (fst (ncall_run d (ncs a))) (ncs b))) /\
    closed D (fst (ncall_run d (ncs (tapp a b)))) = closed D (fst (ncall_run (fst (ncall_run d (ncs a))) (ncs b))).
  Proof.
    intros H.
    pose proof (run_cut (ncs a ++ ncs b) _ H) as [H1 H2].
    rewrite cut_app, !cut_ncs in H1, H2. rewrite <- H1, <- H2, ncall_run_app; simpl.
    rewrite vis_app; auto.
  Qed.

  (** [exec_acts] leaves the destination in exactly the state the stripped calls
      would, as long as it stays open *)
  Lemma exec_acts_state l d : l_inv L d -> closed D (fst (exec_acts D d l)) = false ->
    fst (exec_acts D d l) = fst (ncall_run d (flat_map strip l)).
  Proof.
    revert d; induction l as [|a l IH]; intros d H Hc; [reflexivity|].
    rewrite exec_acts_cons in *; simpl in *.
    destruct a as [n|n|n]; simpl in *.
    - rewrite ncall_run_cons; simpl. apply IH; auto. apply (l_step L), H.
    - destruct (closed D d) eqn:Ec; simpl in *.
      + destruct (exec_acts_closed L l d H Ec) as [Hx _]; congruence.
      + rewrite ncall_run_cons; simpl. apply IH; auto. apply (l_step L), H.
    - apply IH; auto.
  Qed.

  Section Trans.
    Context {I E : Type}.
    Variable T : trans I E O F.
    Variable TL : tlaw T.

    Let DT := denote T D.
    Let LT : lawful DT adds := denote_lawful TL L.

    Lemma ncut_state ns d : l_inv L d -> closed D (fst (ncall_run d ns)) = false ->
      cut ns = (fst (cut ns), FOpen) /\ ncs (cut ns) = ns.
    Proof.
      revert d; induction ns as [|n ns IH]; intros d H Hc; [auto|].
      rewrite ncall_run_cons in Hc; simpl in Hc.
      pose proof (l_step L d (CN n) H) as Hi.
      destruct n as [x|e| |].
      - destruct (IH _ Hi Hc) as [H1 H2]. simpl. split.
        + rewrite H1; reflexivity.
        + change (ncs (x :: fst (cut ns), snd (cut ns))) with (Nxt x :: ncs (cut ns)). rewrite H2; reflexivity.
      - destruct (ncall_run_closed ns _ Hi (l_term L d (CN (Err e)) H eq_refl)); congruence.
      - destruct (ncall_run_closed ns _ Hi (l_term L d (CN Cmp) H eq_refl)); congruence.
      - destruct (ncall_run_closed ns _ Hi (l_term L d (CN Uns) H eq_refl)); congruence.
    Qed.

    Lemma den_run_closed ns (q : oq T) d : dinv TL L (q, d) -> closed D d = true ->
      vis (snd (run_from DT (q, d) (map (fun n => CN n) ns))) = [] /\
      closed DT (fst (run_from DT (q, d) (map (fun n => CN n) ns))) = true.
    Proof.
      intros H Hc.
      assert (Hcl : closed DT (q, d) = true) by (simpl; rewrite Hc; apply orb_true_r).
      destruct (run_from_closed LT (map (fun n => CN n) ns) (q, d) H Hcl) as (H1 & _ & H2).
      split; auto. rewrite H2. clear. induction ns; simpl; auto.
    Qed.

    Lemma den_run ns (q : oq T) d : dinv TL L (q, d) -> closed D d = false ->
      same (closed DT) (run_from DT (q, d) (map (fun n => CN n) ns)) (ncall_run d (ncs (crun T q ns))).
    Proof.
      revert q d; induction ns as [|n ns IH]; intros q d H Hc.
      - split; [reflexivity|]. simpl. rewrite (den_closed H); reflexivity.
      - set (q' := fst (react T q false n)). set (l := snd (react T q false n)).
        assert (Es : step DT (q, d) (CN n) = ((q', fst (exec_acts D d l)), snd (exec_acts D d l))).
        { change (step DT (q, d) (CN n)) with (den_n T D (q, d) n). rewrite den_n_eq, Hc. reflexivity. }
        pose proof (l_step LT (q, d) (CN n) H) as Hi'. rewrite Es in Hi'.
        simpl map. rewrite run_from_cons, Es. unfold same. cbn [fst snd].
        cbn [fst] in Hi'. change (dinv TL L (q', fst (exec_acts D d l))) in Hi'.
        cbn [crun]. fold q' l.
        destruct H as [Hi Hd]; simpl in Hi, Hd.
        rewrite vis_app.
        destruct (run_tapp _ (acut l) (crun T q' ns) Hi) as [R1 R2].
        rewrite R1, R2. clear R1 R2.
        destruct (exec_acts_same l _ Hi) as [A1 A2].
        destruct (run_cut (flat_map strip l) _ Hi) as [C1 C2].
        fold (acut l) in C1, C2. rewrite A1, C1.
        destruct (closed D (fst (exec_acts D d l))) eqn:Ec.
        + destruct (den_run_closed ns Hi' Ec) as [E1 E2]. rewrite E1, E2.
          assert (Hcc : closed D (fst (ncall_run d (ncs (acut l)))) = true) by congruence.
          destruct (ncall_run_closed (ncs (crun T q' ns)) _ (ncall_run_inv d (ncs (acut l)) Hi) Hcc) as [G1 G2].
          rewrite G1, G2; auto.
        + destruct (IH q' _ Hi' Ec) as [E1 E2]. rewrite E1, E2.
          assert (Hcc : closed D (fst (ncall_run d (flat_map strip l))) = false) by congruence.
          destruct (ncut_state (flat_map strip l) _ Hi Hcc) as [G1 G2].
          unfold acut. rewrite G2. rewrite <- (exec_acts_state l _ Hi Ec). auto.
    Qed.

    (** fusion: an operator over any lawful destination shows what the
        destination shows for the list-level image of the history *)
    Lemma fuse (t : trace I E) :
      vis (run DT (calls t)) = vis (run D (calls (mean T t))) /\
      closed DT (final DT (calls t)) = closed D (final D (calls (mean T t))).
    Proof.
      unfold run, final, calls, mean, DT. simpl s0; simpl w0. unfold den_ctor.
      rewrite !vis_app, <- app_assoc.
      pose proof (l_inv0 L) as Hi0.
      set (l := o_ctor T). set (dc := fst (exec_acts D (s0 D) l)).
      pose proof (l_inv0 LT) as HiT.
      fold (ncall_run (s0 D) (ncs (tapp (acut l) (crun T (o_init T false) (ncs t))))).
      destruct (run_tapp _ (acut l) (crun T (o_init T false) (ncs t)) Hi0) as [R1 R2].
      rewrite R1, R2. clear R1 R2.
      destruct (exec_acts_same l _ Hi0) as [A1 A2].
      destruct (run_cut (flat_map strip l) _ Hi0) as [C1 C2].
      fold (acut l) in C1, C2. rewrite A1, C1.
      simpl in HiT. unfold den_ctor in HiT. fold l dc in HiT.
      destruct (closed D dc) eqn:Ec.
      - destruct (den_run_closed (ncs t) HiT Ec) as [E1 E2]. unfold DT in E1, E2. rewrite E1, E2.
        assert (Hcc : closed D (fst (ncall_run (s0 D) (ncs (acut l)))) = true).
        { unfold dc in Ec. congruence. }
        destruct (ncall_run_closed (ncs (crun T (o_init T false) (ncs t))) _ (ncall_run_inv (s0 D) (ncs (acut l)) Hi0) Hcc) as [G1 G2].
        rewrite G1, G2; auto.
      - destruct (den_run (ncs t) HiT Ec) as [E1 E2]. unfold DT in E1, E2. rewrite E1, E2.
        unfold dc in Ec.
        assert (Hcc : closed D (fst (ncall_run (s0 D) (flat_map strip l))) = false) by congruence.
        destruct (ncut_state (flat_map strip l) _ Hi0 Hcc) as [G1 G2].
        unfold acut. rewrite G2. rewrite <- (exec_acts_state l _ Hi0 Ec). auto.
    Qed.
  End Trans.
End Fuse.
