(** EntityDestination and ResourceDestination. *)
From Verif Require Import Base SubscrModel SchedModel SchedProofs SchedExec TimeModel TimeLift TimeSpec TimeProofs
  PollSpec PollFacts PollMsg DestModel DestSpec.
Set Implicit Arguments.

Section Dest.
Variables A E F X : Type.
Variable s0 : bool.
Notation N := (notice A E).
Notation ev := (tev (N + bool) N F).
Variable down : list (ncall N F) -> bool * list (req X).
Variable user : X -> nat -> list ev -> X * bool * list (cmd (N + bool) F X).
Hypothesis Hstays : stays user.
Hypothesis Hlistens : listens down.
Notation W := (world (N + bool) N F bool N X).
Notation K := (clo N X).
Notation T := (into_world A E F X s0).
Definition none (p : list ev) (e : ev) : option (ncall N F) := None.
Notation core := (core down (delivered s0) none).

Lemma there_snoc (l : list ev) e : there s0 (l ++ [e]) = match e with XUp (Nxt (inr b)) => b | _ => there s0 l end.
Proof. unfold there. rewrite fold_left_app. destruct e as [| | |[[]| | |]|]; reflexivity. Qed.
Lemma owed_snoc (l : list ev) e : owed s0 (l ++ [e]) = match e with
  | XUp (Nxt (inl n)) => owed s0 l ++ [n]
  | XOut (Nxt _) => tl (owed s0 l)
  | XEnd => if there s0 l then owed s0 l else []
  | _ => owed s0 l end.
Proof.
  assert (Hc : forall l : list ev, fst (fold_left (fun (x : bool * list N) e => match e with
    | XUp (Nxt (inr b)) => (b, snd x)
    | XUp (Nxt (inl n)) => (fst x, snd x ++ [n])
    | XOut (Nxt _) => (fst x, tl (snd x))
    | XEnd => (fst x, if fst x then snd x else [])
    | _ => x end) l (s0, [])) = there s0 l).
  { induction l0 as [|x l0 IH] using rev_ind; auto. rewrite fold_left_app, there_snoc, <- IH. destruct x as [| | |[[]| | |]|[]]; reflexivity. }
  unfold owed. rewrite fold_left_app. destruct e as [| | |[[]| | |]|[]]; try reflexivity. cbn [fold_left snd]. rewrite Hc. reflexivity.
Qed.

Definition item (n : N) : work K := WImmediate (Some (KO n)).
Definition P (ph : phase) now l q (w : W) : Prop :=
  core (given ph) now (w_tr w) (w_shut w) /\ w_shut w = false /\ w_st w = there s0 (w_tr w) /\
  exists ol oq lost, l = map (fun n => (false, item n)) ol /\ q = map (fun n => QS (item n)) oq /\
    owed s0 (w_tr w) = lost ++ ol ++ oq /\ (ph = Between \/ w_st w = true -> lost = []).

Lemma Hclear ph now l q (w : W) : P ph now l q w <-> P ph now l q (clear w).
Proof. reflexivity. Qed.

Definition able (c : cmd (N + bool) F X) : Prop := forall b, c <> CUp (Nxt (inr b)).

Lemma Hcmd ph now l q (w : W) c : is_up c -> ph = Between \/ able c -> Forall (@rq_ok N X) (w_rs w) ->
  P ph now l (q ++ vr now (w_rs w)) w ->
  Forall (@rq_ok N X) (w_rs (do_cmd T down w c)) /\
  P ph now l (q ++ vr now (w_rs (do_cmd T down w c))) (do_cmd T down w c).
Proof.
  intros Hc Ha R HP. pose proof HP as (HC & Hs & Hst & ol & oq & lost & L1 & L2 & L3 & L4).
  destruct c as [|c|r]; [| |destruct Hc].
  - cbn [do_cmd]. destruct (w_born w); [auto|]. cbn [into_world t_sub]. unfold P. wcbn. split; auto.
    split; [apply core_note; simpl; auto|]. split; [auto|]. rewrite there_snoc. split; [auto|].
    exists ol, oq, lost. rewrite owed_snoc. auto.
  - cbn [do_cmd]. unfold up. destruct (w_born w); [|auto]. cbn [negb].
    assert (Hno : Forall (@rq_ok N X) (w_rs w) /\ P ph now l (q ++ vr now (w_rs w)) w) by auto.
    destruct c as [[n|b]|x| |]; [destruct (w_over w); [exact Hno|]..|]; cbn [into_world t_up t_torn]; unfold not_over; wcbn.
    + split. { rqs. } rewrite vr_app, app_assoc. change (vr now [_]) with [QS (item n)]. unfold P. wcbn.
      split; [apply core_note; simpl; auto|]. split; [auto|]. rewrite there_snoc. split; [auto|].
      exists ol, (oq ++ [n]), lost. rewrite owed_snoc, L2, L3, map_app. split; [auto|]. split; [auto|].
      split; [rewrite <- !app_assoc; auto|auto].
    + destruct Ha as [->|Ha]; [|destruct (Ha b); auto]. split; auto. unfold P. wcbn.
      split; [apply core_note; simpl; auto|]. split; [auto|]. rewrite there_snoc. split; [auto|].
      exists ol, oq, lost. rewrite owed_snoc. split; [auto|]. split; [auto|]. split; [auto|]. auto.
    + split; auto. unfold P. wcbn. split; [apply core_note; simpl; auto|]. split; [auto|]. rewrite there_snoc. split; [auto|].
      exists ol, oq, lost. rewrite owed_snoc. auto.
    + split; auto. unfold P. wcbn. split; [apply core_note; simpl; auto|]. split; [auto|]. rewrite there_snoc. split; [auto|].
      exists ol, oq, lost. rewrite owed_snoc. auto.
    + split; auto. unfold P. wcbn. split; [apply core_note; simpl; auto|]. split; [auto|]. rewrite there_snoc. split; [auto|].
      exists ol, oq, lost. rewrite owed_snoc. auto.
Qed.

Lemma Hrun fuel t now l1 wk l2 q (w : W) wk' r w' rs :
  P (Running t) now (l1 ++ (false, wk) :: l2) q w -> Forall (fun x => fst x = true) l1 -> owned wk = true ->
  wtick (run T down user) fuel wk t w = Some (wk', r, w', rs) ->
  Forall (@rq_ok N X) rs /\
  P (Running t) now (l1 ++ (if r then [] else [(true, wk')]) ++ l2) (q ++ vr now rs) w'.
Proof.
  intros (HC & Hs & Hst & ol & oq & lost & L1 & L2 & L3 & L4) Ht _.
  assert (El : l1 = []).
  { destruct l1 as [|y l1]; auto. exfalso. destruct ol as [|n ol]; [discriminate|]. injection L1 as -> _. apply Forall_inv in Ht. discriminate. }
  subst l1. cbn [app] in *. destruct ol as [|n ol]; [discriminate|]. cbn [map] in L1. injection L1 as -> L1.
  cbn [wtick item run into_world t_run t_torn]. intros Y; injection Y as <- <- <- <-. cbn [app]. wcbn.
  destruct (w_st w) eqn:Est.
  - rewrite (L4 (or_intror eq_refl)) in L3. cbn [app] in L3.
    destruct (@tell_open (N + bool) N F bool N X false down (Nxt n) (clear w) Hs) as (rs & -> & R1 & R2).
    revert R2. wcbn. rewrite andb_false_r. intros R2. cbn [app]. split; auto. rewrite R2, app_nil_r.
    assert (Hcl : closes down (Nxt n) (w_tr w) = false).
    { unfold closes. apply Hlistens. }
    assert (Hg : delivered s0 (w_tr w) (XOut (Nxt n))).
    { split; [apply (c_tick HC)|]. split; [auto|]. exists n, (ol ++ oq). auto. }
    unfold P. wcbn. rewrite Hcl. rewrite Hs in HC. split; [rewrite <- Hcl; apply core_out; auto; right; reflexivity|]. split; [auto|].
    rewrite there_snoc. split; [rewrite Est; auto|]. exists ol, oq, []. rewrite owed_snoc, L3. auto.
  - split; [constructor|]. change (vr now (w_rs (clear w))) with (@nil (qop N X)). rewrite app_nil_r.
    unfold P. wcbn. split; [exact HC|]. split; [exact Hs|]. rewrite Est. split; [exact Hst|].
    exists ol, oq, (lost ++ [n]). split; [auto|]. split; [auto|]. rewrite L3, <- !app_assoc. split; [auto|].
    intros [?|?]; discriminate.
Qed.

Lemma Hbegin now l q (w : W) u : P Between now l q w -> Forall (fun x => fst x = true) l ->
  P (Begun u) (Nat.max now u) (map (fun x => (false, snd x)) l) q (note (XTick u) w).
Proof.
  intros (HC & Hs & Hst & ol & oq & lost & L1 & L2 & L3 & L4) Ht.
  unfold P. wcbn. cbn [given] in *. split; [apply core_begin; simpl; auto|]. split; [auto|]. rewrite there_snoc. split; [auto|].
  exists ol, oq, lost. rewrite owed_snoc, L1, map_map. split; [auto|]. split; [auto|]. split; [auto|]. auto.
Qed.
Lemma Hgo t now l (w : W) : P (Begun t) now l [] w -> P (Running t) now l [] w.
Proof.
  intros (HC & Hs & Hst & ol & oq & lost & L1 & L2 & L3 & L4). split; [auto|]. split; [auto|]. split; [auto|].
  exists ol, oq, lost. split; [auto|]. split; [auto|]. split; [auto|]. intros [?|?]; [discriminate|auto].
Qed.
Lemma Hend t now l (w : W) : P (Running t) now l [] w -> Forall (fun x => fst x = true) l -> P Between now l [] (note XEnd w).
Proof.
  intros (HC & Hs & Hst & ol & oq & lost & L1 & L2 & L3 & L4) Ht.
  destruct ol as [|n ol]; [|rewrite L1 in Ht; apply Forall_inv in Ht; discriminate]. destruct oq as [|n oq]; [|discriminate].
  rewrite app_nil_r in L3. unfold P. wcbn. cbn [given] in *.
  split; [apply (@core_end _ _ _ _ _ _ _ t); auto; simpl; intros Hx; rewrite L3; apply L4; right; rewrite Hst; auto|].
  split; [auto|]. rewrite there_snoc. split; [auto|]. exists [], [], []. rewrite owed_snoc. split; [auto|]. split; [auto|].
  split; [|auto]. destruct (there s0 (w_tr w)) eqn:Hx; auto. rewrite L3. rewrite L4; auto.
Qed.
Lemma HS ph now l wk q (w : W) : P ph now l (QS wk :: q) w -> owned wk = true -> P ph now (l ++ [(false, wk)]) q w.
Proof.
  intros (HC & Hs & Hst & ol & oq & lost & L1 & L2 & L3 & L4) _. split; [auto|]. split; [auto|]. split; [auto|].
  destruct oq as [|n oq]; [discriminate|]. cbn [map] in L2. injection L2 as -> L2. exists (ol ++ [n]), oq, lost.
  rewrite L1, map_app. split; [auto|]. split; [auto|]. rewrite <- app_assoc. auto.
Qed.
Lemma HC ph now l q (w : W) : P ph now l (QC _ _ :: q) w -> P ph now [] q w.
Proof. intros (HC & Hs & Hst & ol & oq & lost & L1 & L2 & L3 & L4). destruct oq; discriminate. Qed.
Lemma Hinit : P Between 0 [] [] (mkW (t_new T) false false false false [] []).
Proof. unfold P. wcbn. split; [apply core_init|]. split; [auto|]. split; [auto|]. exists [], [], []. auto. Qed.

Theorem dest_ok fuel depth h m : syss T down user fuel (start T depth) h = Fine m ->
  always (delivered s0) (w_tr (m_world m)).
Proof.
  intros H.
  assert (Hu : forall x t tr, Forall able (snd (user x t tr))).
  { intros x t tr. apply Forall_forall. intros c Hi b ->. exact (Hstays _ _ _ _ Hi). }
  destruct (@lift _ _ _ _ _ _ T down user P Hclear able Hu Hcmd Hrun Hbegin Hgo Hend HS HC Hinit _ _ _ _ H) as (l & q & HP & _).
  destruct HP as (HC & _). apply (c_good HC).
Qed.
End Dest.

Section Facts.
Variables A E F : Type.
Variable s0 : bool.
Notation N := (notice A E).
Notation ev := (tev (N + bool) N F).
Implicit Types tr : list ev.

Lemma signals_snoc tr e : signals (tr ++ [e]) = signals tr ++ match e with XUp (Nxt (inl n)) => [n] | _ => [] end.
Proof. unfold signals. rewrite flat_map_app. simpl. rewrite app_nil_r. auto. Qed.
Lemma vals_snoc tr e : values (tr ++ [e]) = values tr ++ match e with XOut (Nxt n) => [n] | _ => [] end.
Proof. unfold values. rewrite outs_app, flat_map_app. destruct e as [| | | |[]]; simpl; rewrite ?app_nil_r; auto. Qed.

Lemma told_sub tr : always (delivered s0) tr -> sub (values tr ++ owed s0 tr) (signals tr).
Proof.
  induction tr as [|e tr IH] using rev_ind; [constructor|]. intros H. apply always_cut in H. destruct H as [H He].
  specialize (IH H). rewrite signals_snoc, vals_snoc, owed_snoc.
  destruct e as [| t | |[[n|b]| | |]|[n| | |]]; rewrite ?app_nil_r; auto.
  - destruct (there s0 tr); auto. rewrite app_nil_r. apply sub_fewer in IH. auto.
  - rewrite app_assoc. apply sub_app; auto. apply sub_refl.
  - destruct He as (_ & _ & n' & rest & Heq & Ho). injection Heq as <-. rewrite Ho in IH. rewrite Ho, <- app_assoc. exact IH.
Qed.
Lemma told_all tr : always (delivered s0) tr -> lives s0 tr -> signals tr = values tr ++ owed s0 tr.
Proof.
  induction tr as [|e tr IH] using rev_ind; [auto|]. intros H Hl. apply always_cut in H. destruct H as [H He].
  assert (Hl' : lives s0 tr). { intros p r ->. apply (Hl p (r ++ [e])). now rewrite <- app_assoc. }
  specialize (IH H Hl'). rewrite signals_snoc, vals_snoc, owed_snoc.
  destruct e as [| t | |[[n|b]| | |]|[n| | |]]; rewrite ?app_nil_r; auto.
  - rewrite (Hl' tr []); auto. now rewrite app_nil_r.
  - rewrite IH, <- app_assoc. auto.
  - destruct He as (_ & _ & n' & rest & Heq & Ho). injection Heq as <-. rewrite IH, Ho, <- app_assoc. auto.
Qed.
End Facts.

Section Top.
Variables A E F X : Type.
Notation N := (notice A E).
Variable s0 : bool.
Variable down : list (ncall N F) -> bool * list (req X).
Variable user : X -> nat -> list (tev (N + bool) N F) -> X * bool * list (cmd (N + bool) F X).
Hypothesis Hstays : stays user.
Hypothesis Hlistens : listens down.
Variables (fuel depth : nat) (h : list (sact (N + bool) F X)).
Variable m : mach (clo N X) (world (N + bool) N F bool N X).
Hypothesis Hm : syss (into_world A E F X s0) down user fuel (start (into_world A E F X s0) depth) h = Fine m.

Theorem into_world_ok :
  let tr := w_tr (m_world m) in always (delivered s0) tr /\ sub (values tr) (signals tr).
Proof. split; [exact (@dest_ok _ _ _ _ _ _ _ Hstays Hlistens _ _ _ _ Hm)|]. eapply sub_fewer, told_sub, dest_ok; eauto. Qed.
Theorem into_world_all p r : w_tr (m_world m) = p ++ XEnd :: r -> lives s0 p -> values p = signals p.
Proof.
  intros Hp Hl. pose proof (@dest_ok _ _ _ _ _ _ _ Hstays Hlistens _ _ _ _ Hm) as H.
  assert (H' : always (delivered s0) p). { intros p' e s' ->. apply (H p' e (s' ++ XEnd :: r)). rewrite Hp, <- app_assoc. auto. }
  rewrite (told_all H' Hl). specialize (H _ _ _ Hp). cbn in H. rewrite H; [now rewrite app_nil_r|]. apply (Hl p []). now rewrite app_nil_r.
Qed.
End Top.
