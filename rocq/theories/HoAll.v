(** The results about [HoModel], by operator. *)
From Coq Require Import NArith.
From Verif Require Import Base SubscrModel LifeModel CombModel HoModel HoSpec LifeProofs HoProofs HoConc HoConc2 HoConc3 HoConc4 HoStop HoOne HoOne2 HoOne3 HoOne4.
Set Implicit Arguments.

Section All.
Variables A E : Type.
Variable down : list (ncall A E) -> bool.
Notation run k fuel h := (flatten down k fuel h (@init A E)).

Lemma concurrent_runs : forall L h, 1 <= L -> contract false false (outer h) ->
  exists fuel, forall fuel', fuel <= fuel' -> exists s, run (Concurrent L) fuel' h = Fine s.
Proof.
  intros L h HL C. destruct (flatten_ends down (Concurrent L) h (@init A E)) as [fuel H]. exists fuel. intros fuel' Hf. specialize (H fuel' Hf).
  assert (H' : run (Concurrent L) fuel' h <> Panic).
  { destruct (Nat.eq_dec L 1) as [->|Hn]; [now apply concat_fine|]. apply concurrent_fine; auto. lia. }
  destruct (run (Concurrent L) fuel' h); [eauto|congruence|congruence].
Qed.
Section One.
Variable k : kind.
Hypothesis Hk : match k with Concurrent _ => False | _ => True end.
Lemma one_good : forall fuel h s, run k fuel h = Fine s -> always (good1 k (E:=E)) (s_tr s).
Proof. intros fuel h s R. exact (w_tr (@flatten_W A E down k Hk fuel h s R)). Qed.
Lemma one_alone : forall fuel h s, run k fuel h = Fine s -> always (@alone A E) (s_tr s).
Proof. intros fuel h s R p e q Hp. exact (proj1 (one_good _ _ R p e q Hp)). Qed.
Lemma one_once : forall fuel h s, run k fuel h = Fine s -> always (@once A E) (s_tr s).
Proof. intros fuel h s R p e q Hp. exact (proj1 (proj2 (one_good _ _ R p e q Hp))). Qed.
Lemma one_fresh : forall fuel h s, run k fuel h = Fine s -> always (@fresh A E) (s_tr s).
Proof. intros fuel h s R p e q Hp. exact (proj1 (proj2 (proj2 (one_good _ _ R p e q Hp)))). Qed.
End One.
Lemma switch_heard : forall fuel h s, run Switch fuel h = Fine s -> always (@heard A E) (s_tr s).
Proof. intros fuel h s R p e q Hp. exact (proj1 (proj2 (proj2 (proj2 (one_good Switch I _ _ R p e q Hp)))) eq_refl). Qed.
Lemma exhaust_idle : forall fuel h s, run Exhaust fuel h = Fine s -> always (@idle A E) (s_tr s).
Proof. intros fuel h s R p e q Hp. exact (proj2 (proj2 (proj2 (proj2 (one_good Exhaust I _ _ R p e q Hp)))) eq_refl). Qed.
Lemma switch_taken : forall fuel h s, run Switch fuel h = Fine s -> taken down (fun _ => True) (s_tr s).
Proof. intros fuel h s R p i r Hp Ho _. exact (@flatten_T A E down Switch I fuel h s R p i r Hp Ho (or_introl eq_refl)). Qed.
Lemma exhaust_taken : forall fuel h s, run Exhaust fuel h = Fine s -> taken down (fun p => running p = 0) (s_tr s).
Proof. intros fuel h s R p i r Hp Ho Hr. exact (@flatten_T A E down Exhaust I fuel h s R p i r Hp Ho (or_intror Hr)). Qed.
Lemma switch_relays : forall fuel h s, no_uns h = true -> run Switch fuel h = Fine s ->
  always (relays down (@latest_completed A E)) (s_tr s).
Proof. exact (@one_relays A E down Switch I). Qed.
Lemma exhaust_relays : forall fuel h s, no_uns h = true -> run Exhaust fuel h = Fine s ->
  always (relays down (@taken_completed A E)) (s_tr s).
Proof. exact (@one_relays A E down Exhaust I). Qed.
Lemma switch_done : forall fuel h s, no_uns h = true -> run Switch fuel h = Fine s ->
  open down (s_tr s) -> ~ latest_completed (s_tr s).
Proof. exact (@one_done A E down Switch I). Qed.
Lemma exhaust_done : forall fuel h s, no_uns h = true -> run Exhaust fuel h = Fine s ->
  open down (s_tr s) -> ~ taken_completed (s_tr s).
Proof. exact (@one_done A E down Exhaust I). Qed.
Lemma passive_runs : forall k h, (forall l, down l = false) -> match k with Concurrent _ => False | _ => True end -> contract false false (outer h) ->
  exists fuel, forall fuel', fuel <= fuel' -> exists s, run k fuel' h = Fine s.
Proof.
  intros k h Hd Hk C. destruct (flatten_ends down k h (@init A E)) as [fuel H]. exists fuel. intros fuel' Hf. specialize (H fuel' Hf).
  assert (H' := @passive_fine A E down Hd k Hk fuel' h C). destruct (run k fuel' h); [eauto|congruence|congruence].
Qed.
Lemma passive_over : forall k fuel h s, (forall l, down l = false) -> match k with Concurrent _ => False | _ => True end ->
  run k fuel h = Fine s -> always (none_late down) (s_tr s) /\ released down (s_tr s).
Proof. intros k fuel h s Hd Hk R. split; [exact (@passive_none_late A E down Hd k Hk fuel h s R)|exact (@passive_released A E down Hd k Hk fuel h s R)]. Qed.
End All.
