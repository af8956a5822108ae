(** Proofs about [CombModel]. *)
From Coq Require Import NArith.
From Verif Require Import Base SubscrModel LifeModel LifeProofs CombModel CombSpec.
Set Implicit Arguments.

(** *** Flags and histories. *)
Lemma b_waiting : forall w p c e u, is_waiting (bits w p c e u) = w. Proof. intros [] [] [] [] []; reflexivity. Qed.
Lemma b_primed : forall w p c e u, is_primed (bits w p c e u) = p. Proof. intros [] [] [] [] []; reflexivity. Qed.
Lemma b_completed : forall w p c e u, is_completed (bits w p c e u) = c. Proof. intros [] [] [] [] []; reflexivity. Qed.
Lemma b_errored : forall w p c e u, is_errored (bits w p c e u) = e. Proof. intros [] [] [] [] []; reflexivity. Qed.
Lemma b_unsub : forall w p c e u, is_unsubscribed (bits w p c e u) = u. Proof. intros [] [] [] [] []; reflexivity. Qed.
Lemma b_closed : forall w p c e u, is_closed (bits w p c e u) = u || (c || e).
Proof. intros. unfold is_closed, is_finished. now rewrite b_unsub, b_completed, b_errored. Qed.
Lemma b_cnp : forall w p c e u, is_completed_but_not_primed (bits w p c e u) = c && negb p.
Proof. intros. unfold is_completed_but_not_primed. now rewrite b_completed, b_primed. Qed.
Lemma b_clnp : forall w p c e u, is_closed_but_not_primed (bits w p c e u) = (u || (c || e)) && negb p.
Proof. intros. unfold is_closed_but_not_primed. now rewrite b_closed, b_primed. Qed.
Lemma b_next : forall w p c e u, set_next (bits w p c e u) = if u || (c || e) then None else Some (bits false true false false false).
Proof. intros [] [] [] [] []; reflexivity. Qed.
Lemma b_error : forall w p c e u, set_error (bits w p c e u) = if u || (c || e) then None else Some (bits false p false true false).
Proof. intros [] [] [] [] []; reflexivity. Qed.
Lemma b_complete : forall w p c e u, set_complete (bits w p c e u) = if u || (c || e) then None else Some (bits false p true false false).
Proof. intros [] [] [] [] []; reflexivity. Qed.
Lemma b_unsubscribe : forall w p c e u, set_unsubscribe (bits w p c e u) = if u then None else Some (bits false p c e true).
Proof. intros [] [] [] [] []; reflexivity. Qed.
Global Hint Rewrite b_waiting b_primed b_completed b_errored b_unsub b_closed b_cnp b_clnp b_next b_error b_complete b_unsubscribe : bits.

Section One.
Variables A E : Type.
Notation ncall := (ncall A E).
Implicit Types l : list ncall.
Definition unsubbed l : bool := existsb (fun n => match n with Uns => true | _ => false end) l.
Definition errored l : bool := existsb (fun n => match n with Err _ => true | _ => false end) l.

Lemma ended_split : forall l, ended l = unsubbed l || (completed l || errored l).
Proof.
  intros l. unfold ended, unsubbed, completed, errored. induction l as [|[] l IH]; simpl; auto; rewrite ?IH.
  - now rewrite !orb_true_r.
  - now rewrite orb_true_r.
Qed.
Lemma values_snoc : forall l (n : ncall), values (l ++ [n]) = values l ++ match n with Nxt a => [a] | _ => [] end.
Proof. induction l as [|[] l IH]; intros n; simpl; auto; try (now rewrite IH). Qed.
Lemma latest_snoc : forall (v : list A) a, latest_of (v ++ [a]) = Some a.
Proof. induction v as [|b v IH]; simpl; intros; auto. now rewrite IH. Qed.
Lemma latest_none : forall (v : list A), latest_of v = None <-> v = [].
Proof. intros [|a v]; simpl; split; try easy. destruct (latest_of v); easy. Qed.
Lemma completed_snoc : forall l n, completed (l ++ [n]) = completed l || match n with Cmp => true | _ => false end.
Proof. intros. unfold completed. rewrite existsb_app. simpl. now rewrite orb_false_r. Qed.
Lemma ended_snoc : forall l n, ended (l ++ [n]) = ended l || match n with Nxt _ => false | _ => true end.
Proof. intros. unfold ended. rewrite existsb_app. simpl. now rewrite orb_false_r. Qed.
Lemma unsubbed_snoc : forall l n, unsubbed (l ++ [n]) = unsubbed l || match n with Uns => true | _ => false end.
Proof. intros. unfold unsubbed. rewrite existsb_app. simpl. now rewrite orb_false_r. Qed.
Lemma errored_snoc : forall l n, errored (l ++ [n]) = errored l || match n with Err _ => true | _ => false end.
Proof. intros. unfold errored. rewrite existsb_app. simpl. now rewrite orb_false_r. Qed.

Lemma contract_snoc : forall l c g n, contract c g (l ++ [n]) -> contract c g l /\ (n = Uns \/ (c = false /\ ended l = false)).
Proof.
  induction l as [|m l IH]; intros c g n H.
  - simpl in *. destruct n; intuition.
  - destruct m; simpl in *; try destruct H as [? H]; destruct (IH _ _ _ H) as [K1 [K2|[K2 K3]]]; auto; discriminate.
Qed.

(** A [NotificationState] after the calls [l]. *)
Definition SI (s : nstate A E) l : Prop :=
  ns_value s = latest_of (values l) /\ ns_error s = None /\
  ns_flags s = bits (match l with [] => true | _ => false end) (negb (none (values l))) (completed l) (errored l) (unsubbed l).

Lemma SI_new : SI ns_new [].
Proof. repeat split. Qed.
Lemma SI_push : forall s l n, SI s l -> (n = Uns \/ ended l = false) ->
  exists s', ns_push n s = Some s' /\ ns_error s' = (match n with Err x => Some x | _ => None end) /\
    SI (snd (ns_take_error s')) (l ++ [n]) /\ (ns_error s' = None -> SI s' (l ++ [n])).
Proof.
  intros s l n (Hv & He & Hf) Hn.
  assert (HN : forall k, match l ++ [k] with [] => true | _ => false end = false) by (intros; now destruct l).
  destruct n as [a|x| | ]; unfold ns_push; rewrite Hf; autorewrite with bits.
  - destruct Hn as [Hn|Hn]; [discriminate|]. rewrite ended_split in Hn. rewrite Hn. eexists. split; [reflexivity|]. cbn.
    split; [auto|]. unfold SI; cbn. rewrite HN, values_snoc, latest_snoc, completed_snoc, errored_snoc, unsubbed_snoc.
    apply orb_false_elim in Hn. destruct Hn as [-> Hn]. apply orb_false_elim in Hn. destruct Hn as [-> ->].
    assert (HV : none (values l ++ [a]) = false) by (destruct (values l); auto). rewrite HV. auto.
  - destruct Hn as [Hn|Hn]; [discriminate|]. rewrite ended_split in Hn. rewrite Hn. eexists. split; [reflexivity|]. cbn.
    split; [auto|]. unfold SI; cbn. rewrite HN, values_snoc, app_nil_r, completed_snoc, errored_snoc, unsubbed_snoc.
    apply orb_false_elim in Hn. destruct Hn as [-> Hn]. apply orb_false_elim in Hn. destruct Hn as [-> ->]. repeat split; auto; discriminate.
  - destruct Hn as [Hn|Hn]; [discriminate|]. rewrite ended_split in Hn. rewrite Hn. eexists. split; [reflexivity|]. cbn.
    split; [auto|]. unfold SI; cbn. rewrite HN, values_snoc, app_nil_r, completed_snoc, errored_snoc, unsubbed_snoc.
    apply orb_false_elim in Hn. destruct Hn as [-> Hn]. apply orb_false_elim in Hn. destruct Hn as [-> ->]. auto.
  - destruct (unsubbed l) eqn:Hu.
    + exists s. split; auto. split; auto. unfold SI; cbn. rewrite HN, values_snoc, app_nil_r, completed_snoc, errored_snoc, unsubbed_snoc, Hu, !orb_false_r.
      rewrite Hf. destruct l; [discriminate|]. auto.
    + eexists. split; [reflexivity|]. cbn. split; auto. unfold SI; cbn.
      rewrite HN, values_snoc, app_nil_r, completed_snoc, errored_snoc, unsubbed_snoc, !orb_false_r, orb_true_r. auto.
Qed.
End One.

Section Two.
Variables A1 A2 E : Type.
Notation event := (either2 A1 A2 E).
Notation on1 := (@on1 A1 A2 E).
Notation on2 := (@on2 A1 A2 E).

Lemma on1_snoc : forall p e, on1 (p ++ [e]) = on1 p ++ match e with On1 n => [n] | On2 _ => [] end.
Proof. induction p as [|[] p IH]; intros e; simpl; auto; try (now rewrite IH); destruct e; auto. Qed.
Lemma on2_snoc : forall p e, on2 (p ++ [e]) = on2 p ++ match e with On2 n => [n] | On1 _ => [] end.
Proof. induction p as [|[] p IH]; intros e; simpl; auto; try (now rewrite IH); destruct e; auto. Qed.
Lemma on1_app : forall p q, on1 (p ++ q) = on1 p ++ on1 q.
Proof. induction p as [|[] p IH]; intros q; simpl; auto; now rewrite IH. Qed.
Lemma on2_app : forall p q, on2 (p ++ q) = on2 p ++ on2 q.
Proof. induction p as [|[] p IH]; intros q; simpl; auto; now rewrite IH. Qed.

(** May [e] come after [p]? *)
Definition ok (p : list event) (e : event) : Prop :=
  match e with
  | On1 n => n = Uns \/ ended (on1 p) = false
  | On2 n => n = Uns \/ ended (on2 p) = false
  end.
Lemma contract_app : forall A (l l' : list (ncall A E)) c g, contract c g (l ++ l') -> contract c g l.
Proof. intros A. induction l as [|[] l IH]; simpl; intros; intuition eauto. Qed.
Lemma lawful_pre : forall p q : list event, lawful (p ++ q) -> lawful p.
Proof. intros p q [H1 H2]. rewrite on1_app in H1. rewrite on2_app in H2. split; eapply contract_app; eauto. Qed.
Lemma lawful_ok : forall (p : list event) e, lawful (p ++ [e]) -> ok p e.
Proof.
  intros p e [H1 H2]. rewrite on1_snoc in H1. rewrite on2_snoc in H2. destruct e as [n|n]; simpl.
  - destruct (contract_snoc _ _ _ _ H1) as [_ [|[]]]; auto.
  - destruct (contract_snoc _ _ _ _ H2) as [_ [|[]]]; auto.
Qed.

(** *** From one step to all. *)
Section Lift.
Variables B S : Type.
Variable down : list (ncall B E) -> bool.
Variable looks : bool.
Variable answer : list event -> event -> list (ncall B E).
Variable next : event -> S -> told B E -> option (S * told B E).
Variable INV WEAK : list event -> S -> Prop.
Variable fine : list event -> Prop.
Hypothesis fine_pre : forall p q, fine (p ++ q) -> fine p.
Hypothesis fine_lawful : forall p, fine p -> lawful p.
Hypothesis open_step : forall p s w e, INV p s -> t_shut w = false -> ok p e -> fine (p ++ [e]) ->
  exists s', next e s w = Some (s', fold_left (give down looks) (answer p e) w) /\
    (t_shut (fold_left (give down looks) (answer p e) w) = false -> INV (p ++ [e]) s') /\ WEAK (p ++ [e]) s'.
Hypothesis shut_step : forall p s w e, WEAK p s -> t_shut w = true -> ok p e ->
  exists s', next e s w = Some (s', match error_in e with Some x => tell down (Err x) w | None => w end) /\ WEAK (p ++ [e]) s'.
Hypothesis skip : forall p s e, WEAK p s -> WEAK (p ++ [e]) s.

Lemma lift_run : forall h p s w, (if t_shut w then WEAK p s else INV p s) -> fine (p ++ map snd h) ->
  exists s', comb_run next h s w = Some (s', answers down looks answer p w h).
Proof.
  induction h as [|[d e] h IH]; intros p s w HI HF; simpl; [eauto|].
  assert (HF' : fine ((p ++ [e]) ++ map snd h)) by now rewrite <- app_assoc.
  pose proof (lawful_ok p e (fine_lawful (fine_pre _ _ HF'))) as Hok.
  unfold answered. destruct (t_shut w) eqn:Hw; cbn [andb].
  - destruct d; cbn [negb].
    + destruct (@shut_step p s w e HI Hw Hok) as (s' & -> & HW). 
      destruct (IH (p ++ [e]) s' (match error_in e with Some x => tell down (Err x) w | None => w end)) as (s2 & Hs2); auto.
      * replace (t_shut _) with true; auto. destruct (error_in e); cbn; now rewrite ?Hw.
      * exists s2. rewrite Hs2. destruct (error_in e); auto.
    + replace (match error_in e with Some _ => w | None => w end) with w by (destruct (error_in e); auto).
      apply IH; auto. rewrite Hw. now apply skip.
  - destruct (@open_step p s w e HI Hw Hok (fine_pre _ _ HF')) as (s' & -> & HI' & HW'). apply IH; auto.
    destruct (t_shut (fold_left _ _ _)); auto.
Qed.
Lemma lift_all : forall s, INV [] s -> forall h, fine (map snd h) ->
  comb_out next s h = Some (all_told down looks answer h).
Proof.
  intros s HI h HF. unfold comb_out, all_told. destruct (@lift_run h [] s t_new HI HF) as (s' & ->). reflexivity.
Qed.
End Lift.

(** *** The three that store the latest values. *)
Notation nst := (nstate A1 E * nstate A2 E)%type.
Definition WK (p : list event) (s : nst) : Prop := exists q1 q2,
  SI (fst s) q1 /\ SI (snd s) q2 /\ (ended (on1 p) = false -> ended q1 = false) /\ (ended (on2 p) = false -> ended q2 = false).
Lemma WK_skip : forall p s e, WK p s -> WK (p ++ [e]) s.
Proof.
  intros p s e (q1 & q2 & H1 & H2 & H3 & H4). exists q1, q2. rewrite on1_snoc, on2_snoc.
  destruct e; rewrite ?app_nil_r, ?ended_snoc; repeat split; try apply H1; try apply H2; auto; intros H; apply orb_false_elim in H; intuition.
Qed.

(** The push and the taken error. *)
Lemma pushed_step : forall (s : nst) q1 q2 (e : event), SI (fst s) q1 -> SI (snd s) q2 ->
  (match e with On1 n => n = Uns \/ ended q1 = false | On2 n => n = Uns \/ ended q2 = false end) ->
  exists s1 s2, ns_pushed e s = Some s1 /\ take_either_error s1 = (error_in e, s2) /\
    SI (fst s2) (q1 ++ match e with On1 n => [n] | On2 _ => [] end) /\
    SI (snd s2) (q2 ++ match e with On2 n => [n] | On1 _ => [] end).
Proof.
  assert (T : forall (a : nstate A1 E) (b : nstate A2 E), take_either_error (a, b) =
    match ns_error a with
    | Some x => (Some x, (snd (ns_take_error a), b))
    | None => (ns_error b, (snd (ns_take_error a), snd (ns_take_error b)))
    end) by (intros a b; unfold take_either_error; simpl; destruct (ns_error a); reflexivity).
  assert (K : forall A (s : nstate A E) l, SI s l -> SI (snd (ns_take_error s)) l) by (intros A s l (K1 & K2 & K3); repeat split; auto).
  intros [a b] q1 q2 e H1 H2 Hok. cbn [fst snd] in *. destruct e as [n|n]; rewrite app_nil_r.
  - destruct (SI_push H1 Hok) as (a' & Ha & He & Ht & Ht'). exists (a', b). unfold ns_pushed. cbn [fst snd]. rewrite Ha, T, He.
    destruct n as [v|x| | ]; cbn [error_in]; eexists; (split; [reflexivity|]);
      try (split; [destruct H2 as (_ & -> & _); reflexivity|]); try (split; [reflexivity|]); split; auto; try exact (K _ _ _ H2).
  - destruct (SI_push H2 Hok) as (b' & Hb & He & Ht & Ht'). exists (a, b'). unfold ns_pushed. cbn [fst snd]. rewrite Hb, T.
    pose proof H1 as (_ & -> & _). rewrite He. eexists. split; [reflexivity|]. split; [destruct n; reflexivity|]. split; auto; exact (K _ _ _ H1).
Qed.

Definition EXACT (p : list event) (s : nst) : Prop := SI (fst s) (on1 p) /\ SI (snd s) (on2 p).
Lemma exact_weak : forall p s, EXACT p s -> WK p s.
Proof. intros p s [H1 H2]. exists (on1 p), (on2 p). auto. Qed.

Lemma weak_step : forall s (p : list event) e, WK p s -> ok p e ->
  exists s1 s2, ns_pushed e s = Some s1 /\ take_either_error s1 = (error_in e, s2) /\ WK (p ++ [e]) s2.
Proof.
  intros s p e (q1 & q2 & H1 & H2 & K1 & K2) Hok.
  destruct (@pushed_step s q1 q2 e H1 H2) as (s1 & s2 & Hs1 & Hs2 & J1 & J2).
  { destruct e; destruct Hok; auto. }
  exists s1, s2. split; auto. split; auto. do 2 eexists. split; [exact J1|]. split; [exact J2|].
  rewrite on1_snoc, on2_snoc. destruct e; rewrite ?app_nil_r, ?ended_snoc; split; auto; intros H; apply orb_false_elim in H; destruct H as [H ->]; rewrite ?K1, ?K2; auto.
Qed.
Lemma exact_step : forall s (p : list event) e, EXACT p s -> ok p e ->
  exists s1 s2, ns_pushed e s = Some s1 /\ take_either_error s1 = (error_in e, s2) /\ EXACT (p ++ [e]) s2.
Proof.
  intros s p e [H1 H2] Hok.
  destruct (@pushed_step s (on1 p) (on2 p) e H1 H2 Hok) as (s1 & s2 & Hs1 & Hs2 & J1 & J2).
  exists s1, s2. split; auto. split; auto. unfold EXACT. now rewrite on1_snoc, on2_snoc.
Qed.

(** What is true while the destination is open. *)
Definition live (p : list event) : Prop :=
  errored (on1 p) = false /\ errored (on2 p) = false /\ ended (on1 p) && ended (on2 p) = false.
Definition live_cl (p : list event) : Prop := live p /\
  (completed (on1 p) = true -> none (values (on1 p)) = false) /\
  (completed (on2 p) = true -> none (values (on2 p)) = false) /\
  (ended (on1 p) = true -> none (values (on1 p)) = true -> none (values (on2 p)) = false) /\
  (ended (on2 p) = true -> none (values (on2 p)) = true -> none (values (on1 p)) = false).

Lemma no_call : forall A (l : list (ncall A E)), match l with [] => true | _ => false end = negb (ended l) && none (values l).
Proof. intros A [|[] l]; simpl; rewrite ?andb_false_r; reflexivity. Qed.
Lemma none_snoc : forall A (l : list A) x, none (l ++ [x]) = false.
Proof. intros A [|a l]; reflexivity. Qed.
Lemma latest_of_none : forall A (v : list A), match latest_of v with None => none v = true | Some _ => none v = false end.
Proof. intros A [|a v]; simpl; auto. destruct (latest_of v); auto. Qed.

Ltac facts := rewrite ?on1_snoc, ?on2_snoc, ?app_nil_r, ?values_snoc, ?completed_snoc, ?ended_snoc, ?errored_snoc, ?unsubbed_snoc, ?app_nil_r, ?none_snoc, ?latest_snoc.

(** One shut step of any of them that goes through [state_next]. *)
Lemma state_shut : forall B (down : list (ncall B E) -> bool) c1 c2 emit (p : list event) (s : nst) w e,
  WK p s -> t_shut w = true -> ok p e ->
  (forall s, c1 s w = w) -> (forall s, c2 s w = w) ->
  exists s', state_next down c1 c2 emit e s w =
    Some (s', match error_in e with Some x => tell down (Err x) w | None => w end) /\ WK (p ++ [e]) s'.
Proof.
  intros B down c1 c2 emit p s w e HW Hw Hok Hc1 Hc2. destruct (weak_step _ HW Hok) as (s1 & s2 & H1 & H2 & H3).
  unfold state_next. rewrite H1, H2. exists s2. split; auto. destruct (error_in e); auto.
  rewrite Hc1, Hc2, Hw, andb_false_r. reflexivity.
Qed.
Lemma try_shut : forall B (down : list (ncall B E) -> bool) cond c (s : nst) w, t_shut w = true -> try_with down cond c s w = w.
Proof. intros. unfold try_with. now rewrite H. Qed.

(** The shape of one open step. *)
Lemma state_open : forall B (down : list (ncall B E) -> bool) c1 c2 emit (p : list event) (s : nst) w e,
  EXACT p s -> t_shut w = false -> ok p e ->
  exists s', EXACT (p ++ [e]) s' /\
  state_next down (try_with down c1 Cmp) (try_with down c2 Uns) emit e s w =
    Some (s', match error_in e with
              | Some x => tell down (Err x) w
              | None => if c1 s' then tell down Cmp w else if c2 s' then tell down Uns w
                        else if was_next e then match emit s' with Some b => tell down (Nxt b) w | None => w end else w
              end).
Proof.
  intros B down c1 c2 emit p s w e HE Hw Hok. destruct (exact_step _ HE Hok) as (s1 & s2 & H1 & H2 & H3).
  exists s2. split; auto. unfold state_next. rewrite H1, H2. destruct (error_in e); auto.
  assert (T : forall c, is_closing c = true -> t_shut (tell down c w) = true) by (intros c Hc; cbn; now rewrite Hc, orb_true_r).
  unfold try_with. rewrite Hw. cbn [negb andb]. destruct (c1 s2).
  - rewrite !(T Cmp eq_refl). cbn [negb andb]. rewrite (T Cmp eq_refl), andb_false_r. reflexivity.
  - rewrite Hw. cbn [negb andb]. destruct (c2 s2).
    + rewrite (T Uns eq_refl), andb_false_r. reflexivity.
    + rewrite Hw. cbn [negb]. rewrite andb_true_r. reflexivity.
Qed.

Lemma cl_flags : forall (p : list event) (s : nst), EXACT p s -> errored (on1 p) = false -> errored (on2 p) = false ->
  cl_complete s = (completed (on1 p) && completed (on2 p)
    || (negb (none (values (on1 p))) && (completed (on2 p) && none (values (on2 p))))
    || ((completed (on1 p) && none (values (on1 p))) && negb (none (values (on2 p))))) /\
  cl_unsubscribe s = (ended (on1 p) && ended (on2 p)
    || ((negb (ended (on1 p)) && none (values (on1 p))) && (ended (on2 p) && none (values (on2 p))))
    || ((ended (on1 p) && none (values (on1 p))) && (negb (ended (on2 p)) && none (values (on2 p))))) /\
  both_completed s = completed (on1 p) && completed (on2 p) /\
  both_closed s = ended (on1 p) && ended (on2 p) /\
  ns_value (fst s) = latest_of (values (on1 p)) /\ ns_value (snd s) = latest_of (values (on2 p)).
Proof.
  intros p s [(V1 & _ & F1) (V2 & _ & F2)] E1 E2. unfold cl_complete, cl_unsubscribe, both_completed, both_closed. rewrite F1, F2. autorewrite with bits.
  rewrite !no_call, !negb_involutive. rewrite !(ended_split), E1, E2. repeat split; auto.
Qed.

(** *** combine_latest *)
Lemma cl_open : forall down (p : list event) (s : nst) w e,
  (EXACT p s /\ live_cl p) -> t_shut w = false -> ok p e -> lawful (p ++ [e]) ->
  exists s', combine_latest_next down e s w = Some (s', fold_left (give down true) (cl_answer p e) w) /\
    (t_shut (fold_left (give down true) (cl_answer p e) w) = false -> EXACT (p ++ [e]) s' /\ live_cl (p ++ [e])) /\ WK (p ++ [e]) s'.
Proof.
  intros down p s w e [HE HL] Hw Hok _. unfold combine_latest_next.
  destruct (state_open down (@cl_complete A1 A2 E) (@cl_unsubscribe A1 A2 E) (@latest A1 A2 E) w e HE Hw Hok) as (s' & HE' & ->).
  exists s'. pose proof (exact_weak HE') as HW. cut (forall w',
    w' = fold_left (give down true) (cl_answer p e) w -> 
    (match error_in e with
     | Some x => tell down (Err x) w
     | None => if cl_complete s' then tell down Cmp w else if cl_unsubscribe s' then tell down Uns w
               else if was_next e then match latest s' with Some b => tell down (Nxt b) w | None => w end else w
     end) = w' /\ (t_shut w' = false -> live_cl (p ++ [e]))).
  { intros K. destruct (K _ eq_refl) as [-> K2]. auto. }
  intros w' ->. destruct HL as ((L1 & L2 & L3) & L4 & L5 & L6 & L7).
  assert (G : forall c, give down true w c = tell down c w) by (intros; unfold give; now rewrite Hw).
  destruct (error_in e) as [x|] eqn:He.
  - assert (HA : cl_answer p e = [Err x]) by (destruct e as [[]|[]]; simpl in He |- *; congruence).
    rewrite HA. cbn [fold_left]. rewrite G. split; auto. cbn [tell t_shut]. rewrite Hw. discriminate.
  - assert (E1 : errored (on1 (p ++ [e])) = false) by (destruct e as [[]|[]]; facts; rewrite ?L1; auto; discriminate).
    assert (E2 : errored (on2 (p ++ [e])) = false) by (destruct e as [[]|[]]; facts; rewrite ?L2; auto; discriminate).
    destruct (cl_flags HE' E1 E2) as (-> & -> & _ & _ & V1 & V2). unfold latest. rewrite V1, V2. unfold live_cl, live. rewrite E1, E2. clear V1 V2 E1 E2 HE' HE HW.
    destruct e as [[a|x| | ]|[a|x| | ]]; try discriminate He; clear He; cbn [was_next is_next cl_answer cl_ends]; facts; simpl in Hok.
    all: rewrite ?orb_false_r, ?orb_true_r.
    all: pose proof (latest_of_none (values (on1 p))) as N1; pose proof (latest_of_none (values (on2 p))) as N2.
    all: pose proof (ended_split (on1 p)) as S1; pose proof (ended_split (on2 p)) as S2; rewrite L1, orb_false_r in S1; rewrite L2, orb_false_r in S2.
    all: destruct (ended (on1 p)), (ended (on2 p)); try discriminate L3; try (destruct Hok as [Hok|Hok]; discriminate Hok);
      destruct (completed (on1 p)), (completed (on2 p)); try (rewrite ?orb_true_r in *; discriminate);
      destruct (latest_of (values (on1 p))), (latest_of (values (on2 p))); rewrite N1, N2 in *;
      try (discriminate (L4 eq_refl)); try (discriminate (L5 eq_refl)); try (discriminate (L6 eq_refl eq_refl)); try (discriminate (L7 eq_refl eq_refl)).
    all: cbn; rewrite ?G; (split; [reflexivity|]); cbn; rewrite ?Hw; cbn; try discriminate; intros _; intuition congruence.
Qed.

Lemma combine_latest_told : forall down (h : list (bool * event)), lawful (map snd h) ->
  combine_latest down h = Some (all_told down true (@cl_answer A1 A2 E) h).
Proof.
  intros down h H. unfold combine_latest.
  apply (@lift_all _ _ down true (@cl_answer A1 A2 E) (combine_latest_next down) (fun p s => EXACT p s /\ live_cl p) WK (@lawful A1 A2 E)); auto.
  - exact lawful_pre.
  - intros p s w e HI Hw Ho Hf. exact (@cl_open down _ _ w e HI Hw Ho Hf).
  - intros p s w e HW Hw Ho. apply state_shut with (p := p); auto; intros; now apply try_shut.
  - exact WK_skip.
  - repeat split; discriminate.
Qed.

(** *** combine_changes *)
Lemma live_step : forall (p : list event) e, live p -> error_in e = None ->
  errored (on1 (p ++ [e])) = false /\ errored (on2 (p ++ [e])) = false.
Proof. intros p e (L1 & L2 & L3) He. destruct e as [[]|[]]; try discriminate He; facts; rewrite ?L1, ?L2; auto. Qed.

Lemma cc_open : forall down (p : list event) (s : nst) w e,
  (EXACT p s /\ live p) -> t_shut w = false -> ok p e -> lawful (p ++ [e]) ->
  exists s', combine_changes_next down e s w = Some (s', fold_left (give down true) (cc_answer p e) w) /\
    (t_shut (fold_left (give down true) (cc_answer p e) w) = false -> EXACT (p ++ [e]) s' /\ live (p ++ [e])) /\ WK (p ++ [e]) s'.
Proof.
  intros down p s w e [HE HL] Hw Hok _. unfold combine_changes_next.
  match goal with |- context [state_next _ (try_with _ ?c1 _) (try_with _ ?c2 _) ?em] =>
    destruct (state_open down c1 c2 em w e HE Hw Hok) as (s' & HE' & ->) end.
  exists s'. pose proof (exact_weak HE') as HW. split; [|split; auto]; [|intros Hs; split; auto; revert Hs];
  destruct (error_in e) as [x|] eqn:He;
  assert (G : forall c, give down true w c = tell down c w) by (intros; unfold give; now rewrite Hw).
  - assert (HA : cc_answer p e = [Err x]) by (destruct e as [[]|[]]; simpl in He |- *; congruence). rewrite HA. cbn [fold_left]. now rewrite G.
  - destruct (@live_step p e HL He) as [E1 E2]. destruct (cl_flags HE' E1 E2) as (_ & _ & -> & -> & V1 & V2). rewrite V1, V2. destruct HL as (L1 & L2 & L3).
    clear V1 V2 E1 E2 HE' HE HW.
    destruct e as [[a|x| | ]|[a|x| | ]]; try discriminate He; clear He; cbn [was_next is_next cc_answer both_ends]; facts; simpl in Hok; rewrite ?orb_false_r, ?orb_true_r;
    pose proof (ended_split (on1 p)) as S1; pose proof (ended_split (on2 p)) as S2; rewrite L1, orb_false_r in S1; rewrite L2, orb_false_r in S2;
    destruct (ended (on1 p)), (ended (on2 p)); try discriminate L3; try (destruct Hok as [Hok|Hok]; discriminate Hok);
      destruct (completed (on1 p)), (completed (on2 p)); try (rewrite ?orb_true_r in *; discriminate); cbn; rewrite ?G; auto.
    all: unfold change_of, known; destruct (latest_of _); reflexivity.
  - assert (HA : cc_answer p e = [Err x]) by (destruct e as [[]|[]]; simpl in He |- *; congruence). rewrite HA. cbn [fold_left]. rewrite G. cbn. now rewrite Hw.
  - destruct (@live_step p e HL He) as [E1 E2]. unfold live. rewrite E1, E2. destruct HL as (L1 & L2 & L3). clear E1 E2 HE' HE HW.
    destruct e as [[a|x| | ]|[a|x| | ]]; try discriminate He; clear He; cbn [was_next is_next cc_answer both_ends]; facts; simpl in Hok; rewrite ?orb_false_r, ?orb_true_r;
    pose proof (ended_split (on1 p)) as S1; pose proof (ended_split (on2 p)) as S2; rewrite L1, orb_false_r in S1; rewrite L2, orb_false_r in S2;
    destruct (ended (on1 p)), (ended (on2 p)); try discriminate L3; try (destruct Hok as [Hok|Hok]; discriminate Hok);
      destruct (completed (on1 p)), (completed (on2 p)); try (rewrite ?orb_true_r in *; discriminate); cbn; rewrite ?G; cbn; rewrite ?Hw; cbn; try discriminate; auto.
Qed.
Lemma combine_changes_told : forall down (h : list (bool * event)), lawful (map snd h) ->
  combine_changes down h = Some (all_told down true (@cc_answer A1 A2 E) h).
Proof.
  intros down h H. unfold combine_changes.
  apply (@lift_all _ _ down true (@cc_answer A1 A2 E) (combine_changes_next down) (fun p s => EXACT p s /\ live p) WK (@lawful A1 A2 E)); auto.
  - exact lawful_pre.
  - intros p s w e HI Hw Ho Hf. exact (@cc_open down _ _ w e HI Hw Ho Hf).
  - intros p s w e HW Hw Ho. apply state_shut with (p := p); auto; intros; now apply try_shut.
  - exact WK_skip.
  - repeat split; discriminate.
Qed.

(** *** join *)
Lemma would_be_fine : forall A (s : nstate A E) l (n : ncall A E), SI s l -> (n = Uns \/ ended l = false) ->
  update_would_be_invalid (ns_flags s) n = match n with Uns => unsubbed l | _ => false end.
Proof.
  intros A s l n HS H. destruct HS as (_ & _ & F). rewrite F. destruct H as [H|H]; [subst n|]; unfold update_would_be_invalid.
  - now rewrite b_unsub.
  - rewrite b_closed, b_unsub. rewrite ended_split in H. rewrite H. now destruct n.
Qed.
(** An unsubscription that is not the first is not pushed, and changes nothing anyway. *)
Lemma SI_again : forall A (s : nstate A E) l, SI s l -> unsubbed l = true -> SI s (l ++ [Uns]).
Proof.
  intros A s l (V & X & F) Hu. unfold SI. rewrite values_snoc, app_nil_r, completed_snoc, errored_snoc, unsubbed_snoc, !orb_false_r, Hu.
  destruct l; [discriminate|]. rewrite F, Hu. auto.
Qed.
Lemma join_pushed : forall (s : nst) q1 q2 (e : event), SI (fst s) q1 -> SI (snd s) q2 ->
  (match e with On1 n => n = Uns \/ ended q1 = false | On2 n => n = Uns \/ ended q2 = false end) ->
  exists s1 s2,
    (if match e with
        | On1 n => update_would_be_invalid (ns_flags (fst s)) n
        | On2 n => update_would_be_invalid (ns_flags (snd s)) n
        end then Some s else ns_pushed e s) = Some s1 /\ take_either_error s1 = (error_in e, s2) /\
    SI (fst s2) (q1 ++ match e with On1 n => [n] | On2 _ => [] end) /\
    SI (snd s2) (q2 ++ match e with On2 n => [n] | On1 _ => [] end).
Proof.
  intros s q1 q2 e H1 H2 Hok. destruct (@pushed_step s q1 q2 e H1 H2 Hok) as (s1 & s2 & P1 & P2 & P3 & P4).
  assert (Q : forall k1 k2, SI (fst s) k1 -> SI (snd s) k2 -> exists t, take_either_error s = (None, t) /\ SI (fst t) k1 /\ SI (snd t) k2).
  { intros k1 k2 (X1 & Y1 & Z1) (X2 & Y2 & Z2). destruct s as [a b]. unfold take_either_error. simpl in *. rewrite Y1, Y2. eexists. split; [reflexivity|]. repeat split; auto. }
  destruct e as [n|n].
  - rewrite (would_be_fine H1 Hok). destruct n as [a|x| | ]; eauto 6. destruct (unsubbed q1) eqn:Hu; eauto 6.
    rewrite app_nil_r. destruct (Q _ _ (SI_again H1 Hu) H2) as (t & T1 & T2 & T3). exists s, t. auto.
  - rewrite (would_be_fine H2 Hok). destruct n as [a|x| | ]; eauto 6. destruct (unsubbed q2) eqn:Hu; eauto 6.
    rewrite app_nil_r. destruct (Q _ _ H1 (SI_again H2 Hu)) as (t & T1 & T2 & T3). exists s, t. auto.
Qed.
Lemma join_open : forall down (p : list event) (s : nst) w e,
  (EXACT p s /\ live p) -> t_shut w = false -> ok p e -> lawful (p ++ [e]) ->
  exists s', join_next down e s w = Some (s', fold_left (give down false) (join_answer p e) w) /\
    (t_shut (fold_left (give down false) (join_answer p e) w) = false -> EXACT (p ++ [e]) s' /\ live (p ++ [e])) /\ WK (p ++ [e]) s'.
Proof.
  intros down p s w e [[HE1 HE2] HL] Hw Hok _. unfold join_next.
  destruct (@join_pushed s (on1 p) (on2 p) e HE1 HE2 Hok) as (s1 & s' & -> & -> & J1 & J2). rewrite <- on1_snoc in J1. rewrite <- on2_snoc in J2.
  assert (HE' : EXACT (p ++ [e]) s') by (split; auto). pose proof (exact_weak HE') as HW.
  destruct (error_in e) as [x|] eqn:He.
  - assert (HA : join_answer p e = [Err x]) by (destruct e as [[]|[]]; simpl in He |- *; congruence). rewrite HA. cbn [fold_left give andb].
    eexists. split; [reflexivity|]. split; auto. cbn. now rewrite Hw.
  - exists s'. destruct (@live_step p e HL He) as [E1 E2]. unfold join_complete, try_with. destruct (cl_flags HE' E1 E2) as (_ & _ & -> & -> & V1 & V2).
    unfold latest. rewrite V1, V2, Hw. cbn [negb andb]. destruct HL as (L1 & L2 & L3).
    cut (forall w',  w' = fold_left (give down false) (join_answer p e) w ->
      (let w1 := if completed (on1 (p ++ [e])) && completed (on2 (p ++ [e])) then
        tell down Cmp match opt_pair (latest_of (values (on1 (p ++ [e])))) (latest_of (values (on2 (p ++ [e])))) with Some b => tell down (Nxt b) w | None => w end else w in
       if negb (t_shut w1) && (ended (on1 (p ++ [e])) && ended (on2 (p ++ [e]))) then tell down Uns w1 else w1) = w' /\ (t_shut w' = false -> live (p ++ [e]))).
    { cbn zeta. intros K. destruct (K _ eq_refl) as [K1 K2]. rewrite K1. auto. }
    cbn zeta. intros w' ->. unfold live. rewrite E1, E2. clear E1 E2 V1 V2 HE' HW J1 J2 HE1 HE2.
    destruct e as [[a|x| | ]|[a|x| | ]]; try discriminate He; clear He; cbn [was_next is_next join_answer both_ends]; facts; simpl in Hok; rewrite ?orb_false_r, ?orb_true_r;
    pose proof (ended_split (on1 p)) as S1; pose proof (ended_split (on2 p)) as S2; rewrite L1, orb_false_r in S1; rewrite L2, orb_false_r in S2;
    destruct (ended (on1 p)), (ended (on2 p)); try discriminate L3; try (destruct Hok as [Hok|Hok]; discriminate Hok);
      destruct (completed (on1 p)), (completed (on2 p)); try (rewrite ?orb_true_r in *; discriminate); cbn [andb orb negb fold_left give app];
      rewrite ?andb_false_r, ?Hw; cbn [andb orb negb fold_left give app]; unfold opt_pair;
      try (destruct (latest_of (values (on1 p))); [destruct (latest_of (values (on2 p)))|]); cbn [fold_left app give andb]; cbn; rewrite ?orb_true_r; cbn; rewrite ?Hw; cbn;
      split; auto; try discriminate.
Qed.
Lemma join_shut : forall down (p : list event) (s : nst) w e, WK p s -> t_shut w = true -> ok p e ->
  exists s', join_next down e s w = Some (s', match error_in e with Some x => tell down (Err x) w | None => w end) /\ WK (p ++ [e]) s'.
Proof.
  intros down p s w e (q1 & q2 & H1 & H2 & K1 & K2) Hw Hok. unfold join_next.
  destruct (@join_pushed s q1 q2 e H1 H2) as (s1 & s2 & -> & -> & J1 & J2).
  { destruct e; destruct Hok; auto. }
  exists s2. split; [destruct (error_in e); auto; unfold join_complete; rewrite Hw; cbn [negb andb]; now rewrite try_shut|].
  do 2 eexists. split; [exact J1|]. split; [exact J2|].
  rewrite on1_snoc, on2_snoc. destruct e; rewrite ?app_nil_r, ?ended_snoc; split; auto; intros H; apply orb_false_elim in H; destruct H as [H ->]; rewrite ?K1, ?K2; auto.
Qed.
Lemma join_told : forall down (h : list (bool * event)), lawful (map snd h) ->
  join down h = Some (all_told down false (@join_answer A1 A2 E) h).
Proof.
  intros down h H. unfold join.
  apply (@lift_all _ _ down false (@join_answer A1 A2 E) (join_next down) (fun p s => EXACT p s /\ live p) WK (@lawful A1 A2 E)); auto.
  - exact lawful_pre.
  - intros p s w e HI Hw Ho Hf. exact (@join_open down _ _ w e HI Hw Ho Hf).
  - intros p s w e HW Hw Ho. exact (@join_shut down _ _ w e HW Hw Ho).
  - exact WK_skip.
  - repeat split; discriminate.
Qed.
End Two.
