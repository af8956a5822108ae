(** Facts about what happened, and the destination. *)
From Coq Require Import ZArith.
From Verif Require Import Base SubscrModel SchedModel SchedProofs SchedExec TimeModel TimeLift TimeSpec.
Set Implicit Arguments.

Section Facts.
Variables A B E S O X : Type.
Notation ev := (tev A B E).
Notation W := (world A B E S O X).

Lemma clock_snoc (l : list ev) e : clock (l ++ [e]) = match e with XTick t => Nat.max (clock l) t | _ => clock l end.
Proof. unfold clock. rewrite fold_left_app. destruct e; reflexivity. Qed.
Lemma given_time_snoc (l : list ev) e : given_time (l ++ [e]) = match e with XTick t => t | _ => given_time l end.
Proof. unfold given_time. rewrite fold_left_app. destruct e; reflexivity. Qed.
Lemma ticking_snoc (l : list ev) e :
  ticking (l ++ [e]) = match e with XTick _ => true | XEnd => false | _ => ticking l end.
Proof. unfold ticking. rewrite fold_left_app. destruct e; reflexivity. Qed.
Lemma outs_app (l l' : list ev) : outs (l ++ l') = outs l ++ outs l'.
Proof. apply flat_map_app. Qed.
Lemma values_snoc (l : list ev) e : values (l ++ [e]) = values l ++ match e with XOut (Nxt b) => [b] | _ => [] end.
Proof. unfold values. rewrite outs_app, flat_map_app. destruct e as [| | | |[]]; simpl; now rewrite ?app_nil_r. Qed.

Lemma pushes_from_app l' : forall (l : list ev) c, pushes_from c (l ++ l') =
  pushes_from c l ++ pushes_from (fold_left (fun c e => match e with XTick t => Nat.max c t | _ => c end) l c) l'.
Proof.
  induction l as [|e l IH]; intros c; simpl; auto. destruct e as [| | |[]|]; simpl; rewrite ?IH; auto.
Qed.
Lemma pushes_snoc (l : list ev) e : pushes (l ++ [e]) = pushes l ++ match e with XUp (Nxt a) => [(clock l, a)] | _ => [] end.
Proof. unfold pushes. rewrite pushes_from_app. destruct e as [| | |[]|]; simpl; auto. Qed.

Lemma pushes_le (l : list ev) : forall x, In x (pushes l) -> fst x <= clock l.
Proof.
  induction l as [|e l IH] using rev_ind; [intros ? []|]. intros x. rewrite pushes_snoc, in_app_iff, clock_snoc.
  intros [H|H].
  - apply IH in H. destruct e; lia.
  - destruct e as [| | |[]|]; simpl in H; try tauto. destruct H as [<-|[]]. simpl; lia.
Qed.
Lemma pushes_sorted (l : list ev) : forall p x q y r, pushes l = p ++ x :: q ++ y :: r -> fst x <= fst y.
Proof.
  induction l as [|e l IH] using rev_ind; [intros [|? ?]; discriminate|]. intros p x q y r.
  rewrite pushes_snoc. destruct e as [| | |[]|]; rewrite ?app_nil_r; try apply IH.
  destruct r as [|z r] using rev_ind.
  - intros H. rewrite app_comm_cons, app_assoc in H. apply app_inj_tail in H. destruct H as [H <-]. simpl.
    apply pushes_le. rewrite H. apply in_elt.
  - intros H. apply (IH p x q y r). clear -H.
    replace (p ++ x :: q ++ y :: r ++ [z]) with ((p ++ x :: q ++ y :: r) ++ [z]) in H by
      (rewrite <- !app_assoc; simpl; rewrite <- !app_assoc; reflexivity).
    apply app_inj_tail in H. tauto.
Qed.

Lemma always_snoc good (l : list ev) e : always good l -> good l e -> always good (l ++ [e]).
Proof.
  intros H1 H2 p e' s H. destruct s as [|z s] using rev_ind.
  - apply app_inj_tail in H. destruct H; subst; auto.
  - rewrite app_comm_cons, app_assoc in H. apply app_inj_tail in H. destruct H as [H _]. eapply H1; eauto.
Qed.
Lemma always_nil good : always good ([] : list ev).
Proof. intros [|? ?] ? ?; discriminate. Qed.

Variable torn : bool.
Variable down : list (ncall B E) -> bool * list (req X).

Lemma open_nil : open down ([] : list ev).
Proof. intros [|? ?] ? ?; discriminate. Qed.
Lemma open_same (l : list ev) e : (forall c, e <> XOut c) -> open down (l ++ [e]) <-> open down l.
Proof.
  intros H. unfold open. rewrite outs_app. destruct e; simpl; rewrite ?app_nil_r; try tauto. edestruct H; eauto.
Qed.
Lemma open_out (l : list ev) c : open down (l ++ [XOut c]) <->
  open down l /\ (exists b, c = Nxt b) /\ fst (down (outs l ++ [c])) = false.
Proof.
  unfold open. rewrite outs_app. simpl. split.
  - intros H. split; [|apply (H (outs l) c []); auto]. intros os c' os' Hl.
    apply (H os c' (os' ++ [c])). rewrite Hl. rewrite <- app_assoc. reflexivity.
  - intros [H1 H2] os c' os' Hl. destruct os' as [|z os'] using rev_ind.
    + apply app_inj_tail in Hl. destruct Hl as [<- <-]. auto.
    + rewrite app_comm_cons, app_assoc in Hl. apply app_inj_tail in Hl. destruct Hl as [Hl _]. eauto.
Qed.

Lemma answered_nil f : answered down f ([] : list ev).
Proof. intros [|? ?] ? ? ?; discriminate. Qed.
Lemma answered_snoc f (l : list ev) e : answered down f l ->
  (forall o, f l e = Some o -> open down (l ++ [e]) -> False) -> answered down f (l ++ [e]).
Proof.
  intros H1 H2 p c o s H Hf Ho. destruct s as [|z s] using rev_ind.
  - apply app_inj_tail in H. destruct H; subst. edestruct H2; eauto.
  - rewrite app_comm_cons, app_assoc in H. apply app_inj_tail in H. destruct H as [H _].
    destruct (H1 _ _ _ _ H Hf Ho) as [s' ->]. simpl; eauto.
Qed.
Lemma answered_two f (l : list ev) e o : answered down f l -> f l e = Some o ->
  (forall o', f (l ++ [e]) (XOut o) = Some o' -> open down ((l ++ [e]) ++ [XOut o]) -> False) ->
  answered down f ((l ++ [e]) ++ [XOut o]).
Proof.
  intros H1 H2 H3 p c' o' s H Hf Ho. destruct s as [|z s] using rev_ind.
  - apply app_inj_tail in H. destruct H; subst. edestruct H3; eauto.
  - clear IHs. rewrite app_comm_cons, app_assoc in H. apply app_inj_tail in H. destruct H as [H <-].
    destruct s as [|z s] using rev_ind.
    + apply app_inj_tail in H. destruct H as [-> ->]. simpl. replace o' with o by congruence. eauto.
    + rewrite app_comm_cons, app_assoc in H. apply app_inj_tail in H. destruct H as [H _].
      destruct (H1 _ _ _ _ H Hf Ho) as [s' ->]. simpl; eauto.
Qed.

(** *** The destination. *)
Definition closes (c : ncall B E) (l : list ev) : bool :=
  match c with Nxt _ => fst (down (outs l ++ [c])) | _ => true end.

Lemma asks_eq rs : forall w : W, fold_left (fun w r => ask (theirs r) w) rs w =
  mkW (w_st w) (w_born w) (w_shut w) (w_over w) (w_panic w) (w_tr w) (w_rs w ++ map (@theirs O X) rs).
Proof.
  induction rs as [|r rs IH]; intros w; simpl; [rewrite app_nil_r; now destruct w|].
  rewrite IH. simpl. rewrite <- app_assoc. reflexivity.
Qed.

Lemma vr_theirs now us : vr now (map (@theirs O X) us) = [].
Proof. induction us as [|r us IH]; simpl; auto. destruct r; simpl; auto. Qed.
Lemma rq_theirs us : Forall (@rq_ok O X) (map (@theirs O X) us).
Proof. induction us as [|r us IH]; simpl; auto. constructor; auto. destruct r; simpl; auto. Qed.

Lemma tell_open c (w : W) : w_shut w = false -> exists rs,
  tell torn down c w = mkW (w_st w) (w_born w) (closes c (w_tr w)) (w_over w) (w_panic w)
    (w_tr w ++ [XOut c]) (w_rs w ++ rs) /\
  Forall (@rq_ok O X) rs /\ forall now, vr now rs = if closes c (w_tr w) && torn then [QC O X] else [].
Proof.
  intros H. unfold tell. rewrite H. cbn [w_tr note]. rewrite outs_app. simpl (outs [XOut c]).
  unfold closes. destruct (down (outs (w_tr w) ++ [c])) as [close us].
  exists (map (@theirs O X) us ++ if (match c with Nxt _ => close | _ => true end) && torn then [QCancel 0] else []).
  rewrite asks_eq. cbn [w_st w_born w_shut w_over w_panic w_tr w_rs note fst].
  unfold shut, ask, set_shut. cbn [w_shut]. rewrite H. split; [|split].
  - destruct c; try destruct close; destruct torn; cbn; rewrite ?H, ?app_nil_r, <- ?app_assoc; reflexivity.
  - apply Forall_app; split; [apply rq_theirs|].
    match goal with |- Forall _ (if ?x then _ else _) => destruct x end; repeat constructor.
  - intros now. rewrite vr_app, vr_theirs. match goal with |- context [if ?x then _ else _] => destruct x end; reflexivity.
Qed.
Lemma tell_shut c (w : W) : w_shut w = true -> tell torn down c w = w.
Proof. intros H. unfold tell. rewrite H. reflexivity. Qed.

(** *** What every operator's invariant contains. *)
Variable good : list ev -> ev -> Prop.
Variable ans : list ev -> ev -> option (ncall B E).

Record core (ph : option nat) (now : nat) (tr : list ev) (sh : bool) : Prop := mkCore {
  c_t : match ph with Some t => t <= now | None => True end;
  c_tick : ticking tr = match ph with Some _ => true | None => false end;
  c_clock : now = clock tr;
  c_open : sh = false <-> open down tr;
  c_good : always good tr;
  c_ans : answered down ans tr;
  c_given : match ph with Some t => given_time tr = t | None => True end
}.

Lemma core_isopen ph now tr sh : core ph now tr sh -> sh = false -> open down tr.
Proof. intros H Hs. apply (c_open H). auto. Qed.

Lemma core_note ph now tr sh e : core ph now tr sh ->
  match e with XSub | XUp _ => True | _ => False end -> sh = true \/ ans tr e = None -> good tr e ->
  core ph now (tr ++ [e]) sh.
Proof.
  intros [H1 H2 H3 H4 H5 H6 H7] He Ha Hg. split; auto.
  - rewrite ticking_snoc. destruct e; auto; destruct He.
  - rewrite clock_snoc. destruct e; auto; destruct He.
  - rewrite open_same; auto. intros c ->. destruct He.
  - apply always_snoc; auto.
  - apply answered_snoc; auto. intros o Hao. destruct Ha as [He1|He1]; [|congruence].
    rewrite open_same by (intros c ->; destruct He). intros Ho. apply H4 in Ho. congruence.
  - rewrite given_time_snoc. destruct e; auto; destruct He.
Qed.
Lemma core_out ph now tr c : core ph now tr false -> good tr (XOut c) ->
  closes c tr = true \/ ans tr (XOut c) = None -> core ph now (tr ++ [XOut c]) (closes c tr).
Proof.
  intros [H1 H2 H3 H4 H5 H6 H7] Hg Ha. assert (Ho : open down tr) by (apply H4; auto).
  assert (Hop : closes c tr = false <-> open down (tr ++ [XOut c])).
  { rewrite open_out. unfold closes. destruct c; split; try discriminate; try (intros (_ & (b & Hb) & _); discriminate).
    - intros Hc. split; [auto|]. split; eauto.
    - intros (_ & _ & ?). auto. }
  split; auto.
  - rewrite ticking_snoc. auto.
  - rewrite clock_snoc. auto.
  - apply always_snoc; auto.
  - apply answered_snoc; auto. intros o Hao Hoo. apply Hop in Hoo. destruct Ha; congruence.
  - rewrite given_time_snoc. auto.
Qed.
(** Two events at once: an event and its answer. *)
Lemma core_ans ph now tr c o : core ph now tr false -> good tr (XUp c) -> good (tr ++ [XUp c]) (XOut o) ->
  ans tr (XUp c) = Some o -> closes o (tr ++ [XUp c]) = true \/ ans (tr ++ [XUp c]) (XOut o) = None ->
  core ph now ((tr ++ [XUp c]) ++ [XOut o]) (closes o (tr ++ [XUp c])).
Proof.
  intros [H1 H2 H3 H4 H5 H6 H7] Hg1 Hg2 Ha Hb.
  assert (Ho : open down (tr ++ [XUp c])) by (rewrite open_same by discriminate; apply H4; auto).
  assert (Hop : closes o (tr ++ [XUp c]) = false <-> open down ((tr ++ [XUp c]) ++ [XOut o])).
  { rewrite open_out. unfold closes. destruct o; split; try discriminate; try (intros (_ & (b & Hb') & _); discriminate).
    - intros Hc. split; [auto|]. split; eauto.
    - intros (_ & _ & ?). auto. }
  split; auto.
  - rewrite !ticking_snoc. auto.
  - rewrite !clock_snoc. auto.
  - apply always_snoc; auto. apply always_snoc; auto.
  - apply answered_two; auto. intros o' Hao Hoo. apply Hop in Hoo. destruct Hb; congruence.
  - rewrite !given_time_snoc. auto.
Qed.
Lemma core_ans2 ph now tr c o : core ph now tr false -> good tr (XOut c) -> good (tr ++ [XOut c]) (XOut o) ->
  closes c tr = false -> ans tr (XOut c) = Some o ->
  closes o (tr ++ [XOut c]) = true \/ ans (tr ++ [XOut c]) (XOut o) = None ->
  core ph now ((tr ++ [XOut c]) ++ [XOut o]) (closes o (tr ++ [XOut c])).
Proof.
  intros [H1 H2 H3 H4 H5 H6 H7] Hg1 Hg2 Hcl Ha Hb.
  assert (Ho : open down (tr ++ [XOut c])).
  { rewrite open_out. unfold closes in Hcl. destruct c; try discriminate. split; [apply H4; auto|]. split; eauto. }
  assert (Hop : closes o (tr ++ [XOut c]) = false <-> open down ((tr ++ [XOut c]) ++ [XOut o])).
  { rewrite open_out. unfold closes. destruct o; split; try discriminate; try (intros (_ & (b & Hb') & _); discriminate).
    - intros Hc. split; [auto|]. split; eauto.
    - intros (_ & _ & ?). auto. }
  split; auto.
  - rewrite !ticking_snoc. auto.
  - rewrite !clock_snoc. auto.
  - apply always_snoc; auto. apply always_snoc; auto.
  - apply answered_two; auto. intros o' Hao Hoo. apply Hop in Hoo. destruct Hb; congruence.
  - rewrite !given_time_snoc. auto.
Qed.
Lemma core_begin now tr sh u : core None now tr sh -> good tr (XTick u) -> ans tr (XTick u) = None ->
  core (Some u) (Nat.max now u) (tr ++ [XTick u]) sh.
Proof.
  intros [H1 H2 H3 H4 H5 H6 H7] Hg Ha. split; auto.
  - lia.
  - rewrite ticking_snoc. auto.
  - rewrite clock_snoc. lia.
  - rewrite open_same by discriminate. auto.
  - apply always_snoc; auto.
  - apply answered_snoc; auto. congruence.
  - rewrite given_time_snoc. auto.
Qed.
Lemma core_end t now tr sh : core (Some t) now tr sh -> good tr XEnd -> ans tr XEnd = None -> core None now (tr ++ [XEnd]) sh.
Proof.
  intros [H1 H2 H3 H4 H5 H6 H7] Hg Ha. split; auto.
  - rewrite ticking_snoc. auto.
  - rewrite clock_snoc. lia.
  - rewrite open_same by discriminate. auto.
  - apply always_snoc; auto.
  - apply answered_snoc; auto. congruence.
Qed.
Lemma core_init : core None 0 [] false.
Proof.
  split; auto using always_nil, answered_nil. split; auto. intros _. apply open_nil.
Qed.
End Facts.

Lemma skipn_snoc {Y} n (l : list Y) x : n <= length l -> skipn n (l ++ [x]) = skipn n l ++ [x].
Proof. intros. rewrite skipn_app. replace (n - length l) with 0 by lia. reflexivity. Qed.
Lemma skipn_next {Y} (x : Y) l' : forall l n, skipn n l = x :: l' -> skipn (S n) l = l'.
Proof.
  induction l as [|y l IH]; intros [|n] H; try discriminate; simpl in *.
  - injection H as _ H. exact H.
  - apply IH in H. exact H.
Qed.
Lemma skipn_nth {Y} (x : Y) l' l n : skipn n l = x :: l' -> nth_error l n = Some x.
Proof.
  intros H. rewrite <- (firstn_skipn n l), H.
  assert (n < length l).
  { destruct (Nat.lt_ge_cases n (length l)); auto. rewrite skipn_all2 in H by auto. discriminate. }
  rewrite nth_error_app2 by (rewrite firstn_length; lia).
  rewrite firstn_length, Nat.min_l, Nat.sub_diag by lia. reflexivity.
Qed.
Lemma skipn_none {Y} (l : list Y) n : n <= length l -> skipn n l = [] -> n = length l.
Proof. intros H1 H2. apply (f_equal (@length _)) in H2. rewrite skipn_length in H2. simpl in H2. lia. Qed.

Section Folds.
Variables A B E : Type.
Notation ev := (tev A B E).
Implicit Types l : list ev.
Lemma latest_snoc l e : latest (l ++ [e]) = match e with XUp (Nxt a) => Some a | XOut (Nxt _) => None | _ => latest l end.
Proof. unfold latest. rewrite fold_left_app. destruct e as [| | |[]|[]]; reflexivity. Qed.
Lemma in_tick_snoc l e : in_tick (l ++ [e]) = match e with XTick _ => 0 | XOut (Nxt _) => S (in_tick l) | _ => in_tick l end.
Proof. unfold in_tick. rewrite fold_left_app. destruct e as [| | |[]|[]]; reflexivity. Qed.
Lemma since_snoc l e : since (l ++ [e]) = match e with XSub => match since l with None => Some (clock l) | s => s end | _ => since l end.
Proof.
  assert (Hc : forall l, fst (fold_left (fun (x : nat * option nat) (e : ev) => match e with
    | XTick t => (Nat.max (fst x) t, snd x) | XSub => (fst x, match snd x with None => Some (fst x) | s => s end) | _ => x end) l (0, None)) = clock l).
  { induction l0 as [|x l0 IH] using rev_ind; auto. rewrite fold_left_app, clock_snoc, <- IH. destruct x; auto. }
  unfold since. rewrite fold_left_app. destruct e; simpl; rewrite ?Hc; auto.
Qed.
Definition some {Y} (o : option Y) : bool := match o with Some _ => true | None => false end.
Lemma ticks_snoc l e : ticks (l ++ [e]) = match e with
  | XTick _ => if some (since l) then S (ticks l) else ticks l
  | XSub => if ticking l && negb (some (since l)) then S (ticks l) else ticks l
  | _ => ticks l end.
Proof.
  assert (Hc : forall l, fst (fold_left (fun (x : bool * bool * nat) (e : ev) => match e with
    | XTick _ => ((true, snd (fst x)), if snd (fst x) then S (snd x) else snd x)
    | XEnd => ((false, snd (fst x)), snd x)
    | XSub => ((fst (fst x), true), if fst (fst x) && negb (snd (fst x)) then S (snd x) else snd x)
    | _ => x end) l ((false, false), 0)) = (ticking l, some (since l))).
  { induction l0 as [|x l0 IH] using rev_ind; auto. rewrite fold_left_app, ticking_snoc, since_snoc. destruct x; simpl; rewrite IH; auto; destruct (since l0); auto. }
  unfold ticks. rewrite fold_left_app. destruct e; simpl; auto; rewrite Hc; auto.
Qed.
End Folds.
Lemma periods_snoc {A E} d cap (l : list (tev A nat E)) e : periods d cap (l ++ [e]) = match e with
  | XTick t => match since l with
               | Some s => periods d cap l + Nat.min cap ((Nat.max (clock l) t - s) / d - (clock l - s) / d)
               | None => periods d cap l end
  | _ => periods d cap l end.
Proof.
  assert (Hc : forall l : list (tev A nat E), fst (fold_left (fun (x : nat * option nat * nat) e => match e with
    | XTick t =>
        let c := fst (fst x) in
        let c' := Nat.max c t in
        ((c', snd (fst x)),
         match snd (fst x) with
         | Some s => snd x + Nat.min cap ((c' - s) / d - (c - s) / d)
         | None => snd x
         end)
    | XSub => ((fst (fst x), match snd (fst x) with None => Some (fst (fst x)) | s => s end), snd x)
    | _ => x end) l ((0, None), 0)) = (clock l, since l)).
  { induction l0 as [|x l0 IH] using rev_ind; auto. rewrite fold_left_app, clock_snoc, since_snoc.
    match type of IH with fst ?f = _ => destruct f as [[? ?] ?] end. cbn in IH. injection IH as -> ->. destruct x; reflexivity. }
  unfold periods. rewrite fold_left_app. destruct e; auto. cbn [fold_left]. rewrite Hc. cbn [fst snd]. destruct (since l); auto.
Qed.

Ltac snocs := repeat first [rewrite clock_snoc | rewrite values_snoc | rewrite pushes_snoc | rewrite ticking_snoc
  | rewrite latest_snoc | rewrite given_time_snoc | rewrite in_tick_snoc | rewrite since_snoc | rewrite ticks_snoc
  | rewrite periods_snoc];
  rewrite ?app_nil_r.
Ltac rqs := rewrite ?Forall_app; repeat split; auto; repeat (constructor; simpl; auto).
Ltac wcbn := cbn [note st ask clear set_shut set_over set_born set_panic w_st w_born w_shut w_over w_panic w_tr w_rs].

(** *** Operators with one task. *)
Section One.
Variables O X : Type.
Notation K := (clo O X).
Inductive one (f : bool -> work K -> Prop) : list (bool * work K) -> list (qop O X) -> Prop :=
| one_in b w : f b w -> one f [(b, w)] []
| one_soon w : f false w -> one f [] [QS w].
Lemma one_HS f l w q : one f l (QS w :: q) -> one f (l ++ [(false, w)]) q.
Proof. intros H. inversion H; subst. constructor. auto. Qed.
Lemma one_HC f l q : one f l (QC _ _ :: q) -> False.
Proof. intros H. inversion H. Qed.
Lemma one_imp (f g : bool -> work K -> Prop) l q : (forall b w, f b w -> g b w) -> one f l q -> one g l q.
Proof. intros H []; constructor; auto. Qed.
Lemma one_begin (f g : bool -> work K -> Prop) l q : (forall b w, f b w -> g false w) -> one f l q -> one g (map (fun x => (false, snd x)) l) q.
Proof. intros H []; constructor; simpl; eauto. Qed.
Lemma one_end f l : one f l [] -> Forall (fun x : bool * work K => fst x = true) l -> exists w, f true w.
Proof. intros H F. inversion H; subst. apply Forall_inv in F. simpl in F. subst. eauto. Qed.
Lemma one_run f l1 w l2 q : one f (l1 ++ (false, w) :: l2) q -> l1 = [] /\ l2 = [] /\ q = [] /\ f false w.
Proof.
  intros H. inversion H as [b w' Hf E1 E2|]; subst.
  - destruct l1 as [|? [|? ?]]; try discriminate. injection E1 as -> -> <-. auto.
  - destruct l1; discriminate.
Qed.

(** The shape of all tasks. *)
Definition shaped (f : work K -> Prop) (l : list (bool * work K)) (q : list (qop O X)) : Prop :=
  Forall (fun x => f (snd x)) l /\ Forall (fun x => match x with QS w => f w | QC _ _ => True end) q.
Lemma shaped_more f l q q' : shaped f l q -> Forall (fun x : qop O X => match x with QS w => f w | QC _ _ => True end) q' -> shaped f l (q ++ q').
Proof. intros [H1 H2] H3. split; auto. apply Forall_app; auto. Qed.
Lemma shaped_HS f l w q : shaped f l (QS w :: q) -> shaped f (l ++ [(false, w)]) q.
Proof. intros [H1 H2]. inversion H2; subst. split; auto. apply Forall_app. auto. Qed.
Lemma shaped_HC f l q : shaped f l (QC _ _ :: q) -> shaped f [] q.
Proof. intros [H1 H2]. inversion H2; subst. split; auto. Qed.
Lemma shaped_begin f l q : shaped f l q -> shaped f (map (fun x => (false, snd x)) l) q.
Proof. intros [H1 H2]. split; auto. apply Forall_map. auto. Qed.
Lemma shaped_run f l1 w l2 q : shaped f (l1 ++ (false, w) :: l2) q -> f w /\ forall (r : bool) w', f w' -> shaped f (l1 ++ (if r then [] else [(true, w')]) ++ l2) q.
Proof.
  intros [H1 H2]. apply Forall_app in H1. destruct H1 as [H1 H3]. inversion H3; subst. split; auto.
  intros r w' Hw. split; auto. apply Forall_app. split; auto. destruct r; simpl; auto.
Qed.
End One.
