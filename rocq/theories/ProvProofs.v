(** The filtered views of a provenance subject. *)
From Coq Require Import Permutation.
From Verif Require Import Base SubscrModel SubscrProofs OpsModel OpsSpec OpsProofs OpsSem OpsMean OpsPipe.
From Verif Require Import SubjectModel SubjectSpec SubjectProofs SubjectMore ProvModel.
Set Implicit Arguments.

Section Prov.
Context {A Pv E : Type}.

Definition never (_ : list (sev (A * Pv) E)) : bool := false.

Lemma upto_never : forall h l, upto never h l = upto never [] l.
Proof.
  intros h l. revert h. induction l as [|[] l IH]; intros h; cbn; auto.
  rewrite IH, (IH [SN a]). auto.
Qed.

Lemma notifs_upto : forall (f : Pv -> bool) l n,
  notifs_of (map fst (map fst (filter (fun x => f (snd (fst x)))
     (combine (fst (cut (signals (map feed (upto never [] l)))))
              (seq n (length (fst (cut (signals (map feed (upto never [] l)))))))))),
   snd (cut (signals (map feed (upto never [] l))))) =
  flat_map (strip f) (upto never [] l).
Proof.
  intros f. induction l as [|[[a p]| | |] l IH]; intros n; auto.
  cbn [upto]. unfold never at 1 3 5 7. rewrite (upto_never ([] ++ [SN (a, p)]) l).
  cbn [map feed signals cut fst snd length seq combine filter flat_map strip].
  rewrite <- (IH (S n)). destruct (f p); auto.
Qed.

Lemma all_seen : forall l,
  obs (run (head (@view_all A Pv E)) (map feed (upto never [] l))) =
  flat_map (strip (fun _ => true)) (upto never [] l).
Proof.
  intros l. rewrite (proj1 (@head_any_history _ _ _ _ (@view_all A Pv E) _ eq_refl)).
  rewrite <- (@notifs_upto (fun _ => true) l 0). unfold view_all. cbn [spec_pipe spec fst snd]. f_equal. f_equal.
  f_equal. generalize (fst (cut (signals (map feed (upto never [] l))))) as vs. generalize 0.
  intros n vs. revert n. induction vs as [|v vs IH]; intros n; cbn; [auto|f_equal; apply IH].
Qed.

Lemma only_seen : forall eqb p l,
  obs (run (head (@view_only A Pv E eqb p)) (map feed (upto never [] l))) =
  flat_map (strip (fun q => eqb q p)) (upto never [] l).
Proof.
  intros eqb p l. rewrite (proj1 (@head_any_history _ _ _ _ (@view_only A Pv E eqb p) _ eq_refl)).
  rewrite <- (@notifs_upto (fun q => eqb q p) l 0). reflexivity.
Qed.

Lemma filter_index : forall eqb (p : Pv) (vs : list (A * Pv)) n,
  filter (fun x => (snd x =? 0) || eqb (snd (fst x)) p) (combine vs (seq (S n) (length vs))) =
  filter (fun x => eqb (snd (fst x)) p) (combine vs (seq (S n) (length vs))).
Proof. induction vs as [|v vs IH]; intros n; cbn; auto. rewrite IH. auto. Qed.

Lemma replay_then_seen : forall eqb p x l,
  obs (run (head (@view_replay_then A Pv E eqb p)) (map feed (upto never [] (SN x :: l)))) =
  NNext (fst x) :: flat_map (strip (fun q => eqb q p)) (upto never [] l).
Proof.
  intros eqb p x l. rewrite (proj1 (@head_any_history _ _ _ _ (@view_replay_then A Pv E eqb p) _ eq_refl)).
  unfold view_replay_then.
  cbn [upto]. unfold never at 1. rewrite (upto_never ([] ++ [SN x]) l).
  cbn [spec_pipe spec fst snd map feed signals cut]. unfold enumerated.
  cbn [length seq combine filter fst snd Nat.eqb orb map].
  rewrite (@filter_index eqb p _ 0).
  rewrite <- (@notifs_upto (fun q => eqb q p) l 1). auto.
Qed.

Lemma replay_then_seen_end : forall eqb p e,
  obs (run (head (@view_replay_then A Pv E eqb p)) (map feed (upto never [] [SE e]))) = [NError e].
Proof. intros. reflexivity. Qed.

Context (prog : nat -> list (sev (A * Pv) E) -> list (ucmd (A * Pv) E) * bool).
Context (ord : nat -> list nat -> list nat).
Context (ord_perm : forall k l, Permutation l (ord k l)).
Context (v : A * Pv) (before after : list (ucmd (A * Pv) E)).
Context (Hq : quiet prog) (Hn : forall h, snd (prog (subs_of before) h) = false).

Definition prov_run := outer_users prog ord (behavior v) (sj_new (behavior v)) (before ++ USub :: after).

Lemma upto_ext : forall (q1 q2 : list (sev (A * Pv) E) -> bool) l h, (forall h, q1 h = q2 h) -> upto q1 h l = upto q2 h l.
Proof.
  induction l as [|[] l IH]; intros h H; cbn; auto. rewrite H, (IH (h ++ [SN a])); auto.
Qed.

Lemma prov_history : history prov_run (subs_of before) =
  upto never [] (map SN (replayed (behavior v) before) ++ told_late (subs_of before) before after).
Proof.
  unfold prov_run. rewrite (@quiet_told _ _ prog ord ord_perm (behavior v)
    (@polite_behavior _ _ v) (@faithful_behavior _ _ v) Hq before after).
  apply upto_ext. auto.
Qed.

Theorem prov_all : obs (run (head (@view_all A Pv E)) (map feed (history prov_run (subs_of before)))) =
  flat_map (strip (fun _ => true)) (history prov_run (subs_of before)).
Proof. rewrite prov_history. apply all_seen. Qed.

Theorem prov_only : forall eqb p,
  obs (run (head (@view_only A Pv E eqb p)) (map feed (history prov_run (subs_of before)))) =
  flat_map (strip (fun q => eqb q p)) (history prov_run (subs_of before)).
Proof. intros. rewrite prov_history. apply only_seen. Qed.

Theorem prov_replay_then : forall eqb p,
  let told := history prov_run (subs_of before) in
  obs (run (head (@view_replay_then A Pv E eqb p)) (map feed told)) =
  match told with
  | SN x :: l => NNext (fst x) :: flat_map (strip (fun q => eqb q p)) l
  | _ => flat_map (strip (fun q => eqb q p)) told
  end.
Proof.
  intros eqb p. cbn zeta. rewrite prov_history. rewrite replayed_behavior.
  destruct (errored before) eqn:He.
  - unfold errored in He. unfold told_late.
    destruct (finish_of before) as [[]|]; try discriminate. reflexivity.
  - cbn [map app]. rewrite replay_then_seen. cbn [upto]. unfold never at 2.
    rewrite (upto_never ([] ++ _)). auto.
Qed.

End Prov.
