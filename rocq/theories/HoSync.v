(** Proofs about [HoModel]: inner observables that are over when they have been subscribed to. *)
From Coq Require Import NArith.
From Verif Require Import Base SubscrModel LifeModel CombModel HoModel HoSpec HoProofs HoConc HoAll MergeModel MergeSpec HoMerge.
From Verif Require LifeProofs.
Set Implicit Arguments.

Section Sync.
Variables A E : Type.
Variable down : list (ncall A E) -> bool.
Variable L : nat.
Hypothesis HL : 1 <= L.
Notation call := (ncall A E).
Notation st := (HoModel.st A E).
Notation cmd := (HoModel.cmd A E).
Notation step := (HoModel.step down (Concurrent L)).
Notation drive := (HoModel.drive down (Concurrent L)).
Notation flatten := (HoModel.flatten down (Concurrent L)).
Implicit Types (s : st) (K : list cmd).

Definition goes K s s' : Prop := exists n, forall m, n <= m -> drive m K s = Fine s'.
Lemma goes_nil s : goes [] s s.
Proof. exists 0. intros m _. now destruct m. Qed.
Lemma goes_cons c K s s1 K1 s' : step c s = Some (s1, K1) -> goes (K1 ++ K) s1 s' -> goes (c :: K) s s'.
Proof. intros H [n G]. exists (S n). intros m Hm. destruct m; [lia|]. cbn [HoModel.drive]. rewrite H. apply G. lia. Qed.

Lemma told_out m (t : told A E) : t_shut t = false -> t_out (tell down m t) = t_out t ++ [m] /\ t_shut (tell down m t) = is_closing m || down (t_out t ++ [m]).
Proof. apply tell_out. Qed.
Definition idle_st n f (t : told A E) tr : st := mkSt [] 0 0 LifeModel.fresh LifeModel.fresh (repeat [] n) None false f t [] n tr.
Definition mid_st i f (t : told A E) tr : st := mkSt [] 1 1 LifeModel.fresh LifeModel.fresh (repeat [] (S i)) None false f t [] (S i) tr.
Definition dead s : Prop := t_shut (s_told s) = true.
Definition opened (i : nat) : inner := mkInner true false false i true true.

Lemma repeat_snoc : forall X (x : X) n, repeat x n ++ [x] = repeat x (S n).
Proof. intros X x n. induction n; cbn; auto. now rewrite IHn. Qed.
Lemma concat_repeat n : concat (repeat (@nil nat) n) = [].
Proof. induction n; auto. Qed.

(** After the inner subscriber is closed, nothing. *)
Lemma goes_rest i s : i_closed (s_inner s i) = true -> forall (l : list call), goes (map (KCall i) l ++ [KSubscribed i]) s s.
Proof.
  intros H. induction l as [|c l IH]; cbn [map app].
  - eapply goes_cons; [cbn; now rewrite H|]. apply goes_nil.
  - eapply goes_cons; [cbn; now rewrite H|]. exact IH.
Qed.

Lemma step_next i a f t tr : f i = opened i ->
  step (KCall i (Nxt a)) (mid_st i f t tr) = Some (mid_st i f t (tr ++ [TIn i (Nxt a)]), [KTell (Nxt a); KAfterNext i]).
Proof. intros Hf. unfold mid_st. cbn. rewrite Hf. reflexivity. Qed.
Lemma step_tell i m f t tr : t_shut t = false ->
  step (KTell m) (mid_st i f t tr) = Some (mid_st i f (tell down m t) (tr ++ [TOut m]), if t_shut (tell down m t) then [KTear] else []).
Proof. intros Hf. unfold mid_st. cbn. rewrite Hf. reflexivity. Qed.
Definition torn_st i u d f (t : told A E) tr : st := mkSt [] 1 1 u d [] None true f t [] (S i) tr.
Lemma step_tear i f t tr : step KTear (mid_st i f t tr) = Some (torn_st i LifeModel.fresh LifeModel.fresh f t tr, [KTearEnd]).
Proof. unfold mid_st. cbn [HoModel.step s_torn with_torn s_slab]. rewrite concat_repeat. reflexivity. Qed.
Definition uns : N := set_unsubscribe_if_not_already LifeModel.fresh.
Lemma step_end i d f t tr : step KTearEnd (torn_st i LifeModel.fresh d f t tr) = Some (torn_st i uns d f t tr, []).
Proof. reflexivity. Qed.
Lemma step_after i f t tr : t_shut t = true ->
  step (KAfterNext i) (torn_st i uns LifeModel.fresh f t tr) = Some (torn_st i uns uns f t tr, [KUnsub i]).
Proof. intros H. cbn. rewrite H. reflexivity. Qed.
Lemma step_unsub i f t tr : f i = opened i -> exists s', step (KUnsub i) (torn_st i uns uns f t tr) = Some (s', []) /\ s_told s' = t /\ i_closed (s_inner s' i) = true.
Proof.
  intros H. cbn [HoModel.step]. unfold do_unsub. change (s_inner (torn_st i uns uns f t tr) i) with (f i). rewrite H. cbn [i_closed opened].
  eexists. split; [reflexivity|]. cbn. now rewrite Nat.eqb_refl.
Qed.
Lemma after_death i K f t tr : f i = opened i -> t_shut t = true ->
  (forall s, i_closed (s_inner s i) = true -> goes K s s) ->
  exists s', goes (KTear :: KAfterNext i :: K) (mid_st i f t tr) s' /\ s_told s' = t.
Proof.
  intros Hf Ht HK. destruct (@step_unsub i f t tr Hf) as (s' & Q1 & Q2 & Q3). exists s'. split; auto.
  eapply goes_cons; [apply step_tear|]. eapply goes_cons; [apply step_end|]. eapply goes_cons; [now apply step_after|].
  eapply goes_cons; [exact Q1|]. cbn [app]. auto.
Qed.

(** An error. *)
Definition err_st i d t f tr : st := mkSt [] 1 1 LifeModel.fresh d (repeat [] (S i)) None false f t [] (S i) tr.
Definition erred : N := mark ERRORED LifeModel.fresh.
Lemma step_err i x f t tr : f i = opened i ->
  step (KCall i (Err x)) (mid_st i f t tr) = Some (err_st i erred t f (tr ++ [TIn i (Err x)]), [KTell (Err x); KUnsub i]).
Proof. intros Hf. unfold mid_st. cbn [HoModel.step s_inner]. rewrite Hf. reflexivity. Qed.
Lemma step_tell_err i x f t tr : t_shut t = false ->
  step (KTell (Err x)) (err_st i erred t f tr) = Some (err_st i erred (tell down (Err x) t) f (tr ++ [TOut (Err x)]), [KTear]).
Proof.
  intros Ht. destruct (told_out (Err x) t Ht) as [_ T2]. change (t_shut (tell down (Err x) t) = true) in T2.
  unfold err_st. cbn [HoModel.step s_told]. rewrite Ht. cbn [s_told log with_told]. rewrite T2. reflexivity.
Qed.
Lemma step_tear_err i f t tr : step KTear (err_st i erred t f tr) = Some (torn_st i LifeModel.fresh erred f t tr, [KTearEnd]).
Proof. unfold err_st. cbn [HoModel.step s_torn with_torn s_slab]. rewrite concat_repeat. reflexivity. Qed.
Definition erred_uns : N := set_unsubscribe_if_not_already erred.
Lemma step_unsub_err i f t tr : f i = opened i -> exists s', step (KUnsub i) (torn_st i uns erred f t tr) = Some (s', [KOnUnsub i]) /\
  s_told s' = t /\ i_closed (s_inner s' i) = true /\ s_down s' = erred_uns.
Proof.
  intros H. cbn [HoModel.step]. unfold do_unsub. change (s_inner (torn_st i uns erred f t tr) i) with (f i). rewrite H. cbn [i_closed opened].
  eexists. split; [reflexivity|]. cbn. now rewrite Nat.eqb_refl.
Qed.
Lemma goes_err i x rest f t tr : f i = opened i -> t_shut t = false ->
  exists s', goes (map (KCall i) (Err x :: rest) ++ [KSubscribed i]) (mid_st i f t tr) s' /\ s_told s' = tell down (Err x) t.
Proof.
  intros Hf Ht. destruct (@step_unsub_err i f (tell down (Err x) t) ((tr ++ [TIn i (Err x)]) ++ [TOut (Err x)]) Hf) as (s' & Q1 & Q2 & Q3 & Q4). exists s'. split; auto.
  cbn [map app]. eapply goes_cons; [now apply step_err|]. eapply goes_cons; [now apply step_tell_err|]. eapply goes_cons; [apply step_tear_err|].
  eapply goes_cons; [apply step_end|]. eapply goes_cons; [exact Q1|]. eapply goes_cons; [reflexivity|].
  assert (C1 : is_closed (s_down s') = true) by (rewrite Q4; reflexivity). assert (C2 : is_errored (s_down s') = true) by (rewrite Q4; reflexivity).
  rewrite C1, andb_false_r. cbn [app negb]. eapply goes_cons; [reflexivity|]. rewrite C2, andb_false_r. cbn [app]. now apply goes_rest.
Qed.

(** Completion. *)
Definition idle0 n c u f (t : told A E) tr : st := mkSt [] c u LifeModel.fresh LifeModel.fresh (repeat [] n) None false f t [] n tr.
Lemma goes_cmp i rest f t tr : f i = opened i ->
  exists f' tr', goes (map (KCall i) (Cmp :: rest) ++ [KSubscribed i]) (mid_st i f t tr) (idle_st (S i) f' t tr').
Proof.
  intros Hf. set (f1 := fun j => if j =? i then set_completed (opened i) else f j). set (tr1 := tr ++ [TIn i Cmp]).
  set (f2 := fun j => if j =? i then set_closed true (set_completed (opened i)) else f1 j). set (tr2 := tr1 ++ [TEnd i]).
  assert (F1 : f1 i = set_completed (opened i)) by (unfold f1; now rewrite Nat.eqb_refl).
  assert (F2 : i_closed (f2 i) = true) by (unfold f2; now rewrite Nat.eqb_refl).
  exists f2, tr2. cbn [map app].
  eapply goes_cons with (s1 := idle0 (S i) 1 1 f1 t tr1) (K1 := [KAdvance; KInnerCompleted i; KUnsub i]).
  { unfold mid_st. cbn [HoModel.step s_inner log]. rewrite Hf. reflexivity. }
  eapply goes_cons with (s1 := idle0 (S i) 1 1 f1 t tr1) (K1 := []); [reflexivity|].
  eapply goes_cons with (s1 := idle0 (S i) 0 1 f1 t tr1) (K1 := []); [reflexivity|].
  eapply goes_cons with (s1 := idle_st (S i) f2 t tr2) (K1 := [KOnUnsub i]).
  { cbn [HoModel.step]. unfold do_unsub. change (s_inner (idle0 (S i) 0 1 f1 t tr1) i) with (f1 i). rewrite F1. reflexivity. }
  assert (Go : goes (KOnUnsub2 :: map (KCall i) rest ++ [KSubscribed i]) (idle_st (S i) f2 t tr2) (idle_st (S i) f2 t tr2)).
  { eapply goes_cons with (s1 := idle_st (S i) f2 t tr2) (K1 := []); [reflexivity|]. cbn [app]. now apply goes_rest. }
  eapply goes_cons with (s1 := idle_st (S i) f2 t tr2); [reflexivity|]. rewrite <- app_assoc. cbn [app].
  destruct (_ && _); auto. cbn [app]. eapply goes_cons with (s1 := idle_st (S i) f2 t tr2) (K1 := []); [reflexivity|]. exact Go.
Qed.

Lemma goes_calls i : forall (vs : list A) c rest f t tr, final c = true -> f i = opened i -> t_shut t = false ->
  exists s', goes (map (KCall i) (map Nxt vs ++ c :: rest) ++ [KSubscribed i]) (mid_st i f t tr) s' /\
    (dead s' /\ (forall more, t_out (s_told s') = t_out t ++ until down (t_out t) (splice (map Nxt vs ++ c :: rest) more)) \/
     exists f' t' tr', s' = idle_st (S i) f' t' tr' /\ t_shut t' = false /\ t_out t' = t_out t ++ map Nxt vs /\
       forall more, t_out t ++ until down (t_out t) (splice (map Nxt vs ++ c :: rest) more) = t_out t' ++ until down (t_out t') more).
Proof.
  induction vs as [|a vs IH]; intros c rest f t tr Hc Hf Ht.
  - cbn [map app]. destruct c as [|x| |]; try discriminate.
    + destruct (@goes_err i x rest f t tr Hf Ht) as (s' & G & Q). exists s'. split; auto. left. destruct (told_out (Err x) t Ht) as [T1 T2].
      unfold dead. rewrite Q. split; [exact T2|]. intros more. rewrite T1. cbn [splice until]. now destruct (down _).
    + destruct (@goes_cmp i rest f t tr Hf) as (f' & tr' & G). eexists. split; [exact G|]. right. exists f', t, tr'. rewrite app_nil_r. auto.
  - cbn [map app]. destruct (told_out (Nxt a) t Ht) as [T1 T2]. change (t_shut (tell down (Nxt a) t) = down (t_out t ++ [Nxt a])) in T2.
    set (t1 := tell down (Nxt a) t) in *. set (tr1 := (tr ++ [TIn i (Nxt a)]) ++ [TOut (Nxt a)]).
    assert (Start : forall s', goes ((if t_shut t1 then [KTear] else []) ++ KAfterNext i :: map (KCall i) (map Nxt vs ++ c :: rest) ++ [KSubscribed i]) (mid_st i f t1 tr1) s' ->
      goes (KCall i (Nxt a) :: map (KCall i) (map Nxt vs ++ c :: rest) ++ [KSubscribed i]) (mid_st i f t tr) s').
    { intros s' G. eapply goes_cons; [now apply step_next|]. eapply goes_cons; [now apply step_tell|]. exact G. }
    rewrite T2 in Start. destruct (down (t_out t ++ [Nxt a])) eqn:Ed.
    + assert (HK : forall s, i_closed (s_inner s i) = true -> goes (map (KCall i) (map Nxt vs ++ c :: rest) ++ [KSubscribed i]) s s) by (intros; now apply goes_rest).
      destruct (@after_death i _ f t1 tr1 Hf T2 HK) as (s' & G & Q). exists s'. split; [now apply Start|]. left. unfold dead. rewrite Q. split; auto.
      intros more. rewrite T1. cbn [splice until]. now rewrite Ed.
    + destruct (IH c rest f t1 tr1 Hc Hf T2) as (s' & G & Q). exists s'. split.
      * apply Start. cbn [app]. eapply goes_cons with (s1 := mid_st i f t1 tr1) (K1 := []); [unfold mid_st; cbn [HoModel.step s_told]; now rewrite T2|]. exact G.
      * assert (U : forall more, t_out t ++ until down (t_out t) (splice (Nxt a :: map Nxt vs ++ c :: rest) more) = t_out t1 ++ until down (t_out t1) (splice (map Nxt vs ++ c :: rest) more)).
        { intros more. rewrite T1. cbn [splice until]. rewrite Ed, <- app_assoc. reflexivity. }
        destruct Q as [[Q1 Q2]|(f' & t' & tr' & Q1 & Q2 & Q3 & Q4)].
        -- left. split; auto. intros more. now rewrite U.
        -- right. exists f', t', tr'. split; auto. split; auto. split; [rewrite Q3, T1, <- app_assoc; reflexivity|]. intros more. now rewrite U.
Qed.

(** *** The history. *)
Definition ends h s s' : Prop := exists n, forall m, n <= m -> flatten m h s = Fine s'.
Lemma ends_nil s : ends [] s s.
Proof. exists 0. auto. Qed.
Lemma ends_cons a h s s1 K s2 s' : perform (Concurrent L) a s = Some (s1, K) -> goes K s1 s2 -> ends h s2 s' -> ends (a :: h) s s'.
Proof.
  intros H [n G] [n' G']. exists (n + n'). intros m Hm. cbn [HoModel.flatten]. rewrite H, G by lia. apply G'. lia.
Qed.
Lemma dead_ends ls : forall s, dead s -> ends (@fixed A E ls) s s.
Proof.
  induction ls as [|l ls IH]; intros s H.
  - eapply ends_cons; [cbn; rewrite H; reflexivity|apply goes_nil|apply ends_nil].
  - eapply ends_cons; [cbn; rewrite H; reflexivity|apply goes_nil|now apply IH].
Qed.
Lemma fixed_ends : forall ls n f t tr, Forall (@synchronous A E) ls -> t_shut t = false ->
  exists s', ends (fixed ls) (idle_st n f t tr) s' /\ t_out (s_told s') = t_out t ++ until down (t_out t) (chained true ls).
Proof.
  induction ls as [|l ls IH]; intros n f t tr Hl Ht.
  - destruct (told_out Cmp t Ht) as [T1 T2]. change (t_shut (tell down Cmp t) = true) in T2.
    set (u := mark UNSUBSCRIBED (mark COMPLETED LifeModel.fresh)).
    set (s1 := mkSt [] 0 0 u LifeModel.fresh (repeat [] n) None false f t [] n (tr ++ [TUp Cmp])).
    set (t1 := tell down Cmp t) in *.
    set (s2 := mkSt [] 0 0 u LifeModel.fresh (repeat [] n) None false f t1 [] n ((tr ++ [TUp Cmp]) ++ [TOut Cmp])).
    set (s3 := fun u => mkSt [] 0 0 u LifeModel.fresh [] None true f t1 [] n ((tr ++ [TUp Cmp]) ++ [TOut Cmp])).
    exists (s3 (set_unsubscribe_if_not_already u)). split.
    + eapply ends_cons with (s1 := s1) (K := [KTell Cmp; KTear]); [| |apply ends_nil].
      * unfold idle_st. cbn [perform is_torn s_told]. rewrite Ht. reflexivity.
      * eapply goes_cons with (s1 := s2) (K1 := [KTear]).
        { cbn [HoModel.step s1 s_told]. rewrite Ht. cbn [s_told log with_told]. fold t1. rewrite T2. reflexivity. }
        eapply goes_cons with (s1 := s3 u) (K1 := [KTearEnd]).
        { cbn [HoModel.step s2 s_torn with_torn s_slab]. rewrite concat_repeat. reflexivity. }
        eapply goes_cons with (K1 := []); [reflexivity|]. eapply goes_cons with (K1 := []); [reflexivity|]. apply goes_nil.
    + cbn [s3 s_told]. rewrite T1. cbn [chained until]. now destruct (down _).
  - inversion Hl as [|? ? Hs Hr]; subst. destruct Hs as (vs & c & rest & -> & Hc).
    set (f1 := fun j => if j =? n then opened n else f j).
    assert (F : f1 n = opened n) by (unfold f1; now rewrite Nat.eqb_refl).
    destruct (@goes_calls n vs c rest f1 t ((tr ++ [TArrive n]) ++ [TSub n]) Hc F Ht) as (s' & G & Q).
    assert (First : forall s2 s'', goes (map (KCall n) (map Nxt vs ++ c :: rest) ++ [KSubscribed n]) (mid_st n f1 t ((tr ++ [TArrive n]) ++ [TSub n])) s2 ->
      ends (fixed ls) s2 s'' -> ends (fixed ((map Nxt vs ++ c :: rest) :: ls)) (idle_st n f t tr) s'').
    { intros s2 s'' G1 G2. unfold fixed. cbn [map app].
      eapply ends_cons with (s1 := mkSt [] 1 1 LifeModel.fresh LifeModel.fresh (repeat [] n) None false f t [] (S n) (tr ++ [TArrive n])) (K := [KCreate n (map Nxt vs ++ c :: rest)]); [| |exact G2].
      - unfold idle_st. cbn [perform is_torn s_told]. rewrite Ht. cbn [orb s_torn s_nc log with_arrived].
        replace (0 <? L) with true by (symmetry; apply Nat.ltb_lt; lia). reflexivity.
      - eapply goes_cons; [|rewrite app_nil_r; exact G1]. cbn [HoModel.step s_slab with_slab log with_inner]. rewrite repeat_length, repeat_snoc. reflexivity. }
    cbn [chained]. destruct Q as [[Q1 Q2]|(f' & t' & tr' & -> & Q2 & Q3 & Q4)].
    + exists s'. split; [|apply Q2]. eapply First; [exact G|]. now apply dead_ends.
    + destruct (IH (S n) f' t' tr' Hr Q2) as (s'' & G2 & Q5). exists s''. split; [eapply First; eauto|]. rewrite Q5. symmetry. apply Q4.
Qed.

Lemma sync_fixed ls : Forall (@synchronous A E) ls -> exists s fuel, (forall m, fuel <= m -> flatten m (fixed ls) init = Fine s) /\
  outs (s_tr s) = until down [] (chained true ls).
Proof.
  intros H. destruct (@fixed_ends ls 0 (fun _ => no_inner) (t_new) [] H eq_refl) as (s & [n G] & Q). exists s, n. split; auto.
  rewrite <- (g_out (@flatten_G A E down (Concurrent L) n (fixed ls) s (G n (le_n n)))). exact Q.
Qed.
End Sync.

Section Observables.
Variables A E : Type.
Variable down : list (ncall A E) -> bool.
Lemma merge_sync limit ls : Forall (@synchronous A E) ls -> exists s fuel, (forall m, fuel <= m -> merge_observable down limit m ls [] = Fine s) /\
  outs (s_tr s) = until down [] (chained true ls).
Proof.
  intros H. assert (HL : 1 <= clamp limit) by (destruct limit; cbn; lia). destruct (sync_fixed down HL H) as (s & n & G & Q).
  exists s, n. split; auto. intros m Hm. unfold merge_observable. rewrite app_nil_r. auto.
Qed.
Lemma concat_sync ls : Forall (@synchronous A E) ls -> exists s fuel, (forall m, fuel <= m -> concat_observable down m ls [] = Fine s) /\
  outs (s_tr s) = until down [] (chained true ls).
Proof. exact (@merge_sync 0 ls). Qed.
Lemma splice_values (vs : list A) more : splice (map (@Nxt A E) vs ++ [Cmp]) more = map Nxt vs ++ more.
Proof. induction vs; cbn; auto. now rewrite IHvs. Qed.
Lemma chained_values (vss : list (list A)) : chained true (map (fun vs => map (@Nxt A E) vs ++ [Cmp]) vss) = map Nxt (concat vss) ++ [Cmp].
Proof. induction vss as [|vs vss IH]; cbn [map chained concat]; auto. rewrite splice_values, IH, map_app, app_assoc. reflexivity. Qed.
Lemma merge_values limit (vss : list (list A)) : exists s fuel,
  (forall m, fuel <= m -> merge_observable down limit m (map (fun vs => map (@Nxt A E) vs ++ [Cmp]) vss) [] = Fine s) /\
  outs (s_tr s) = until down [] (map Nxt (concat vss) ++ [Cmp]).
Proof.
  rewrite <- chained_values. apply merge_sync. apply Forall_forall. intros l Hl. apply in_map_iff in Hl. destruct Hl as (vs & <- & _).
  exists vs, Cmp, []. auto.
Qed.
Lemma merged_runs L h : 1 <= L -> LifeProofs.contract false false (outer h) -> no_uns h = true ->
  exists fuel, forall fuel', fuel <= fuel' -> exists s, flatten down (Concurrent L) fuel' h init = Fine s /\
  outs (s_tr s) = until down [] (merged 0 false (s_tr s)).
Proof.
  intros HL Hc Hu. destruct (@concurrent_runs A E down L h HL Hc) as [n G]. exists n. intros m Hm. destruct (G m Hm) as [s R].
  exists s. split; auto. eapply concurrent_merged; [|exact Hu|exact R]. lia.
Qed.
Lemma concat_chained fuel ls h s : completes ls = true -> later h = true -> concat_observable down fuel ls h = Fine s ->
  outs (s_tr s) = until down [] (chained true (map (fun i => input i (s_tr s)) (seq 0 (length ls)))).
Proof. intros H1 H2 R. eapply fixed_chained; eauto. Qed.
Lemma merge_merged limit fuel ls h s : completes ls = true -> later h = true -> merge_observable down limit fuel ls h = Fine s ->
  outs (s_tr s) = until down [] (merged 0 false (s_tr s)).
Proof.
  intros H1 H2 R. assert (HL : 1 <= clamp limit) by (destruct limit; cbn; lia). eapply concurrent_merged; [exact HL| |exact R]. now apply fixed_no_uns.
Qed.
End Observables.
