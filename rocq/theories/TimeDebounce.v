(** debounce_time. *)
From Coq Require Import ZArith.
From Verif Require Import Base SubscrModel SchedModel SchedProofs SchedExec TimeModel TimeLift TimeSpec TimeProofs.
Set Implicit Arguments.

Section Debounce.
Variables A E X : Type.
Variable down : list (ncall A E) -> bool * list (req X).
Variable user : X -> nat -> list (tev A A E) -> X * bool * list (cmd A E X).
Variable d : nat.
Hypothesis Hpushless : pushless user.
Notation W := (world A A E counted A X).
Notation K := (clo A X).
Notation T := (debounce A E X d).
Notation core := (core down (debounced down d) (@errors A E)).

Lemma pending_snoc (l : list (tev A A E)) e : pending (l ++ [e]) =
  match e with XUp (Nxt a) => Some (clock l, a) | XOut _ => None | _ => pending l end.
Proof.
  assert (Hc : forall l : list (tev A A E), fst (fold_left (fun x e => match e with
    | XTick t => (Nat.max (fst x) t, snd x)
    | XUp (Nxt a) => (fst x, Some (fst x, a))
    | XOut _ => (fst x, None)
    | _ => x end) l (0, @None (nat * A))) = clock l).
  { induction l0 as [|x l0 IH] using rev_ind; auto. rewrite fold_left_app, clock_snoc, <- IH. destruct x as [| | |[]|]; auto. }
  unfold pending. rewrite fold_left_app. destruct e as [| | |[]|]; simpl; auto. rewrite Hc. auto.
Qed.

Definition item (x : nat * A) (cur : nat) : work K := WDelayed (fst x) cur d (Some (KO (snd x))).
Definition shape (w : work K) : Prop := exists x cur, w = item x cur.
Definition shapes (l : list (bool * work K)) (q : list (qop A X)) : Prop :=
  Forall (fun x : bool * work K => shape (snd x)) l /\
  Forall (fun x : qop A X => match x with QS w => shape w | QC _ _ => True end) q.
Definition soon (ph : option nat) (now cur : nat) : Prop :=
  match ph with Some t => Nat.max cur t = now | None => cur = now end.
Definition active (ph : option nat) (now : nat) (y : bool * work K) (x : nat * A) : Prop :=
  exists cur, snd y = item x cur /\ if fst y then cur = now /\ now < fst x + d else soon ph now cur.

(** The tasks once all is taken over. *)
Definition eff (l : list (bool * work K)) (q : list (qop A X)) : list (bool * work K) :=
  fold_left (fun l x => match x with QS w => l ++ [(false, w)] | QC _ _ => [] end) q l.

Record live (ph : phase) (now : nat) l q (tr : list (tev A A E)) (s : counted) : Prop := mkLive {
  lv_pend : match pending tr with
            | None => eff l q = [] /\ ct_n s = 0%Z
            | Some x => exists y, eff l q = [y] /\ active (given ph) now y x /\ ct_n s = 1%Z
            end;
  lv_some : ct_off s = true \/ ct_done s = true -> pending tr <> None;
  lv_done : ct_done s = true <-> In (XUp Cmp) tr;
  lv_off : ct_off s = true -> ct_done s = false -> In (XUp Uns) tr;
  lv_run : forall t, ph = Running t -> q = []
}.
Definition P ph now l q (w : W) : Prop :=
  core (given ph) now (w_tr w) (w_shut w) /\ shapes l q /\ (w_shut w = false -> live ph now l q (w_tr w) (w_st w)).

Lemma Hclear ph now l q (w : W) : P ph now l q w <-> P ph now l q (clear w).
Proof. reflexivity. Qed.

Lemma live_same ph now l q tr s e :
  match e with XSub | XTick _ | XEnd | XUp Uns | XUp (Err _) => True | _ => False end ->
  live ph now l q tr s -> live ph now l q (tr ++ [e]) s.
Proof.
  intros He [L1 L2 L3 L4 L5].
  assert (V : pending (tr ++ [e]) = pending tr) by (rewrite pending_snoc; destruct e as [| | |[]|]; try destruct He; auto).
  split; rewrite ?V; auto.
  - rewrite L3, in_app_iff. simpl. split; auto. intros [?|[->|[]]]; auto. destruct He.
  - intros. apply in_or_app. auto.
Qed.

Lemma live_over ph now l q tr s : live ph now l q tr s -> (ct_n s =? 0)%Z = true -> pending tr = None.
Proof.
  intros [L1 L2 L3 L4 L5] Hz. apply Z.eqb_eq in Hz. destruct (pending tr); auto.
  destruct L1 as (y & _ & _ & H). lia.
Qed.

Lemma shapes_more l q q' : shapes l q -> Forall (fun x : qop A X => match x with QS w => shape w | QC _ _ => True end) q' -> shapes l (q ++ q').
Proof. intros [H1 H2] H3. split; auto. apply Forall_app; auto. Qed.

Lemma vr_one now a : vr now [QSched 0 (KDelayed d) (KO a)] = [QS (item (now, a) now)].
Proof. cbn. rewrite later_max. reflexivity. Qed.

Lemma eff_app l q q' : eff l (q ++ q') = eff (eff l q) q'.
Proof. apply fold_left_app. Qed.

Definition able (c : cmd A E X) : Prop := forall a, c <> CUp (Nxt a).

Lemma Hcmd ph now l q (w : W) c : is_up c -> ph = Between \/ able c -> Forall (@rq_ok A X) (w_rs w) ->
  P ph now l (q ++ vr now (w_rs w)) w ->
  Forall (@rq_ok A X) (w_rs (do_cmd T down w c)) /\
  P ph now l (q ++ vr now (w_rs (do_cmd T down w c))) (do_cmd T down w c).
Proof.
  intros Hc Hab F HP. pose proof HP as (HC & HSh & HL). destruct c as [|c|r]; [| |destruct Hc].
  - cbn [do_cmd]. destruct (w_born w); [split; [exact F|exact HP]|]. split; auto. unfold P. cbn [debounce t_sub]. wcbn. split; [|split; auto].
    + apply core_note; simpl; auto.
    + intros Hs. apply live_same; simpl; auto.
  - cbn [do_cmd]. unfold up. destruct (w_born w); [|split; [exact F|exact HP]]. cbn [negb].
    assert (Over : forall o (w1 : W), o = Cmp \/ o = Uns -> w_shut w1 = false -> w_tr w1 = w_tr w ++ [XUp o] -> w_rs w1 = w_rs w ->
      w_shut w = false -> (ct_n (w_st w) =? 0)%Z = true ->
      Forall (@rq_ok A X) (w_rs (tell true down o w1)) /\
      P ph now l (q ++ vr now (w_rs (tell true down o w1))) (tell true down o w1)).
    { intros o w1 Ho E1 E2 E3 E4 E5. destruct (@tell_open A A E counted A X true down o w1 E1) as (rs & -> & R1 & R2).
      unfold P. wcbn. rewrite E2, E3. split; [apply Forall_app; auto|].
      assert (Hcl : closes down o (w_tr w ++ [XUp o]) = true) by (destruct Ho; subst; auto). rewrite E2 in R2.
      rewrite vr_app, R2, Hcl, app_assoc. rewrite E4 in HC. split; [|split; [|discriminate]].
      - rewrite <- Hcl. apply core_out; [| |auto].
        + apply core_note; [exact HC|simpl; auto|destruct Ho; subst; simpl; auto|simpl; auto].
        + cbn [debounced]. rewrite open_same by discriminate. split; [apply (core_isopen HC); auto|].
          assert (L := live_over (HL E4) E5).
          destruct Ho; subst o; (split; [apply in_or_app; simpl; auto|rewrite pending_snoc; auto]).
      - apply shapes_more; auto. repeat constructor. }
    destruct c as [a|x| |]; try (destruct (w_over w) eqn:Hov; [split; [exact F|exact HP]; fail|]); cbn [debounce t_up t_torn debounce_up]; wcbn.
    + (* a value *)
      destruct Hab as [->|Hab]; [|exfalso; eapply Hab; eauto].
      split. { rewrite !Forall_app; repeat split; auto; repeat constructor. }
      rewrite !vr_app, vr_one. change (vr now [QCancel 0]) with [QC A X]. rewrite !app_assoc. unfold P. wcbn. split; [|split].
      * apply core_note; simpl; auto.
      * apply shapes_more; [apply shapes_more; auto; repeat constructor|]. repeat constructor. exists (now, a), now. auto.
      * intros Hs. destruct (HL Hs) as [L1 L2 L3 L4 L5]. split; rewrite ?pending_snoc; cbn [ct_done ct_off ct_n]; try discriminate.
        -- exists (false, item (now, a) now). rewrite !eff_app. cbn [eff fold_left app]. split; auto. split; auto.
           exists now. rewrite <- (c_clock HC). simpl. auto.
        -- rewrite L3, in_app_iff. simpl. split; auto. intros [?|[?|[]]]; auto. discriminate.
        -- intros. apply in_or_app; auto.
    + (* an error *)
      destruct (w_shut w) eqn:Hs.
      * rewrite tell_shut by (wcbn; auto). unfold P. wcbn. split. { apply Forall_app; split; auto. }
        rewrite Hs, vr_app, app_assoc. split; [|split; [|discriminate]].
        -- apply core_note; simpl; auto.
        -- apply shapes_more; auto. repeat constructor.
      * match goal with |- context [tell true down (Err x) ?w1] => destruct (@tell_open A A E counted A X true down (Err x) w1) as (rs & -> & R1 & R2); [exact Hs|] end.
        unfold P. wcbn. cbn [closes andb] in R2. split. { rewrite !Forall_app. repeat split; auto. }
        rewrite !vr_app, R2, app_assoc. split; [|split; [|discriminate]].
        -- apply (@core_ans A A E X down _ (@errors A E)); simpl; auto. split; [|eauto].
           rewrite open_same by discriminate. apply (core_isopen HC); auto.
        -- rewrite app_assoc. apply shapes_more; [|repeat constructor].
           rewrite <- app_assoc. rewrite app_assoc. apply shapes_more; auto. repeat constructor.
    + (* completion *)
      destruct (ct_n (w_st w) =? 0)%Z eqn:Hz.
      * destruct (w_shut w) eqn:Hs; [|apply Over; auto].
        rewrite tell_shut by (wcbn; auto). unfold P. wcbn. split; auto. rewrite Hs. split; [|split; [auto|discriminate]].
        apply core_note; simpl; auto.
      * unfold P. wcbn. split; auto. split; [|split; auto].
        { apply core_note; simpl; auto. }
        intros Hs. destruct (HL Hs) as [L1 L2 L3 L4 L5]. split; rewrite ?pending_snoc; cbn [ct_done ct_off ct_n]; auto; try discriminate.
        -- intros _ Z. rewrite Z in L1. destruct L1 as [_ L1]. rewrite L1 in Hz. discriminate.
        -- split; auto. intros. apply in_or_app; simpl; auto.
    + (* unsubscribing *)
      destruct (w_shut w) eqn:Hs; cbn [orb].
      { unfold P. wcbn. split; auto. rewrite Hs. split; [|split; [auto|discriminate]]. apply core_note; simpl; auto. }
      destruct (ct_off (w_st w)) eqn:Ho.
      { unfold P. wcbn. split; auto. rewrite Hs. split; [|split; [auto|]].
        - apply core_note; simpl; auto.
        - intros _. apply live_same; simpl; auto. }
      destruct (ct_n (w_st w) =? 0)%Z eqn:Hz; [apply Over; auto|].
      unfold P. wcbn. split; auto. rewrite Hs. split; [|split; auto].
      { apply core_note; simpl; auto. }
      intros _. destruct (HL eq_refl) as [L1 L2 L3 L4 L5]. split; rewrite ?pending_snoc; cbn [ct_done ct_off ct_n]; auto; try discriminate.
      * intros _ Z. rewrite Z in L1. destruct L1 as [_ L1]. rewrite L1 in Hz. discriminate.
      * rewrite L3, in_app_iff. simpl. split; auto. intros [?|[?|[]]]; auto. discriminate.
      * intros. apply in_or_app; simpl; auto.
Qed.

Lemma item_inj x y c c' : item x c = item y c' -> x = y /\ c = c'.
Proof. unfold item. intros H. injection H as H1 H2 H3. destruct x, y; simpl in *. split; congruence. Qed.

Lemma Hrun fuel t now l1 wk l2 q (w : W) wk' r w' rs :
  P (Running t) now (l1 ++ (false, wk) :: l2) q w -> Forall (fun x => fst x = true) l1 -> owned wk = true ->
  wtick (run T down user) fuel wk t w = Some (wk', r, w', rs) ->
  Forall (@rq_ok A X) rs /\
  P (Running t) now (l1 ++ (if r then [] else [(true, wk')]) ++ l2) (q ++ vr now rs) w'.
Proof.
  intros (HC & [Sh1 Sh2] & HL) Ht _.
  assert (Sh : shape wk). { rewrite Forall_app in Sh1. destruct Sh1 as [_ H6]. inversion H6; auto. }
  assert (Sh3 : shapes (l1 ++ l2) q).
  { split; auto. rewrite Forall_app in *. destruct Sh1 as [? H6]. inversion H6; auto. }
  destruct Sh as (x & cur & ->). cbn [wtick item].
  (* while open it is the only one *)
  assert (One : w_shut w = false -> l1 = [] /\ l2 = [] /\ q = [] /\ pending (w_tr w) = Some x /\ Nat.max cur t = now /\ ct_n (w_st w) = 1%Z).
  { intros Hs. destruct (HL Hs) as [L1 L2 L3 L4 L5]. assert (q = []) by (eapply L5; eauto). subst q. cbn [eff fold_left] in L1.
    destruct (pending (w_tr w)) as [x1|]; [|destruct L1 as [L1 _]; destruct l1; discriminate].
    destruct L1 as (y & L1 & L6 & L7). destruct l1 as [|y1 l1]; [|destruct l1; discriminate]. cbn [app] in L1.
    injection L1 as <- ->. destruct L6 as (c1 & Q1 & Q2). cbn in Q2. apply item_inj in Q1. destruct Q1 as [<- <-]. auto 7. }
  destruct (fst x + d <=? Nat.max cur t) eqn:Hd.
  2: { intros Y; injection Y as <- <- <- <-. split; auto. cbn [vr flat_map]. rewrite app_nil_r. split; [auto|split].
       - split; auto. rewrite Forall_app in *. destruct Sh1 as [F1 F2]. split; auto. inversion F2; subst. constructor; auto.
         exists x, (Nat.max cur t). auto.
       - intros Hs. destruct (One Hs) as (-> & -> & -> & Hp & Hm & Hn). destruct (HL Hs) as [L1 L2 L3 L4 L5]. split; auto.
         rewrite Hp. cbn. eexists. split; [reflexivity|]. split; auto. exists (Nat.max cur t). simpl. split; auto. split; auto.
         apply Nat.leb_gt in Hd. lia. }
  apply Nat.leb_le in Hd. cbn [run].
  cbn [debounce t_run t_torn].
  intros Y; injection Y as <- <- <- <-. cbn [app].
  unfold deliver. wcbn. destruct (w_shut w) eqn:Hs.
  { wcbn. rewrite Hs. cbn [negb]. rewrite !andb_false_r. unfold P. wcbn. split; auto. cbn [vr flat_map]. rewrite app_nil_r, Hs.
    split; [auto|]. split; [auto|discriminate]. }
  destruct (HL eq_refl) as [L1 L2 L3 L4 L5].
  destruct (One eq_refl) as (-> & -> & -> & Hp & Hm & Hn). clear One. cbn [app] in *.
  assert (Hg : debounced down d (w_tr w) (XOut (Nxt (snd x)))).
  { split; [apply (core_isopen HC); auto|]. exists (fst x). split; [destruct x; auto|]. rewrite <- (c_clock HC).
    split; [lia|]. apply (c_tick HC). }
  destruct (@tell_open A A E counted A X true down (Nxt (snd x)) (clear w) Hs) as (rs & -> & R1 & R2).
  revert R2. wcbn. cbn [app]. rewrite andb_true_r. intros R2.
  set (tr1 := w_tr w ++ [XOut (Nxt (snd x))]) in *.
  assert (C1 := core_out _ HC Hg (or_intror eq_refl)). fold tr1 in C1.
  assert (P1 : pending tr1 = None) by (unfold tr1; rewrite pending_snoc; auto).
  destruct (closes down (Nxt (snd x)) (w_tr w)) eqn:Hcl; cbn [negb].
  { rewrite !andb_false_r. unfold P. wcbn. split; [exact R1|]. rewrite R2. split; [auto|]. split; [|discriminate].
    split; repeat constructor. }
  rewrite Hn. change (1 =? 1)%Z with true. rewrite !andb_true_r.
  assert (Hend : forall c (w1 : W), c = Cmp \/ c = Uns -> In (XUp c) (w_tr w) -> 
    w_tr w1 = tr1 -> w_rs w1 = rs -> w_shut w1 = false ->
    Forall (rq_ok (X:=X)) (w_rs (tell true down c w1)) /\
    P (Running t) now [] (vr now (w_rs (tell true down c w1))) (tell true down c w1)).
  { intros c w1 Hc Hi E1 E2 E3. destruct (@tell_open A A E counted A X true down c w1 E3) as (rs2 & -> & R3 & R4).
    assert (Ec : closes down c tr1 = true) by (destruct Hc; subst; auto).
    unfold P. wcbn. rewrite E1, E2 in *. rewrite Ec in R4. rewrite Ec. split; [apply Forall_app; auto|].
    rewrite vr_app, R2, R4. cbn [app andb]. split; [|split; [|discriminate]].
    - rewrite <- Ec. apply core_out; auto. cbn [debounced]. split; [apply (core_isopen C1); auto|].
      destruct Hc; subst c; (split; [apply in_or_app; auto|auto]).
    - split; repeat constructor. }
  destruct (ct_done (w_st w)) eqn:Hdone.
  { apply Hend; auto. tauto. }
  destruct (ct_off (w_st w)) eqn:Hoff.
  { apply Hend; auto. }
  unfold P. wcbn. split; [exact R1|]. rewrite R2. split; auto. split; auto. intros _. split; cbn [ct_done ct_off ct_n]; auto.
  - rewrite P1. auto.
  - intros [|]; discriminate.
  - rewrite L3. unfold tr1. rewrite in_app_iff. simpl. split; auto. intros [?|[?|[]]]; auto; discriminate.
  - discriminate.
Qed.

Lemma Hbegin now l q (w : W) u : P Between now l q w -> Forall (fun x => fst x = true) l ->
  P (Begun u) (Nat.max now u) (map (fun x => (false, snd x)) l) q (note (XTick u) w).
Proof.
  intros (HC & [Sh1 Sh2] & HL) F. unfold P. wcbn. split; [|split].
  - apply core_begin; simpl; auto.
  - split; auto. rewrite Forall_map. auto.
  - intros Hs. apply live_same; simpl; auto. destruct (HL Hs) as [L1 L2 L3 L4 L5]. split; auto; try discriminate.
    assert (He : eff (map (fun x => (false, snd x)) l) q = map (fun x => (false, snd x)) (eff l q)).
    { clear. revert l. induction q as [|[wk|] q IH]; intros l; simpl; auto.
      - rewrite <- IH, map_app. reflexivity.
      - rewrite <- IH. reflexivity. }
    rewrite He. destruct (pending (w_tr w)) as [x|].
    + destruct L1 as (y & -> & (cur & Q1 & Q2) & Q3). eexists. split; [reflexivity|]. split; auto.
      exists cur. split; auto. simpl. cbn in Q2. destruct (fst y); [destruct Q2|]; subst; auto.
    + destruct L1 as [-> L1]. auto.
Qed.

Lemma Hgo t now l (w : W) : P (Begun t) now l [] w -> P (Running t) now l [] w.
Proof.
  intros (HC & Sh & HL). split; [exact HC|split; auto]. intros Hs. destruct (HL Hs) as [L1 L2 L3 L4 L5]. split; auto.
Qed.

Lemma Hend t now l (w : W) : P (Running t) now l [] w -> Forall (fun x => fst x = true) l -> P Between now l [] (note XEnd w).
Proof.
  intros (HC & Sh & HL) F. unfold P. wcbn. split; [|split; auto].
  - apply (@core_end _ _ _ _ _ _ _ t); auto. simpl. intros Ho s a Hp. apply (c_open HC) in Ho.
    destruct (HL Ho) as [L1 L2 L3 L4 L5]. rewrite Hp in L1. destruct L1 as (y & L1 & (cur & Q1 & Q2) & Q3).
    cbn [eff fold_left] in L1. subst l. apply Forall_inv in F. rewrite F in Q2. rewrite <- (c_clock HC). simpl in Q2. lia.
  - intros Hs. apply live_same; simpl; auto. destruct (HL Hs) as [L1 L2 L3 L4 L5]. split; auto; try discriminate.
    destruct (pending (w_tr w)) as [x|]; auto. destruct L1 as (y & L1 & (cur & Q1 & Q2) & Q3).
    exists y. split; auto. split; auto. cbn [eff fold_left] in L1. subst l. apply Forall_inv in F. cbn beta in F.
    exists cur. rewrite F in *. auto.
Qed.

Lemma HS ph now l wk q (w : W) : P ph now l (QS wk :: q) w -> owned wk = true -> P ph now (l ++ [(false, wk)]) q w.
Proof.
  intros (HC & [Sh1 Sh2] & HL) _. inversion Sh2; subst. split; [auto|split].
  - split; auto. apply Forall_app; split; auto.
  - intros Hs. destruct (HL Hs) as [L1 L2 L3 L4 L5]. split; auto. intros t Ht. discriminate (L5 t Ht).
Qed.
Lemma HC ph now l q (w : W) : P ph now l (QC _ _ :: q) w -> P ph now [] q w.
Proof.
  intros (HC & [Sh1 Sh2] & HL). inversion Sh2; subst. split; [auto|split; [split; auto|]].
  intros Hs. destruct (HL Hs) as [L1 L2 L3 L4 L5]. split; auto. intros t Ht. discriminate (L5 t Ht).
Qed.
Lemma Hinit : P Between 0 [] [] (mkW (t_new T) false false false false [] []).
Proof.
  unfold P. wcbn. split; [apply core_init|]. split; [split; constructor|].
  intros _. split; cbn; auto; try discriminate.
  - intros [|]; discriminate.
  - split; [discriminate|tauto].
Qed.

Theorem debounce_ok fuel depth h m : syss T down user fuel (start T depth) h = Fine m ->
  let tr := w_tr (m_world m) in
  always (debounced down d) tr /\ answered down (@errors A E) tr /\
  (open down tr -> In (XUp Cmp) tr -> pending tr <> None).
Proof.
  intros H.
  assert (Hu : forall x t tr, Forall able (snd (user x t tr))).
  { intros x t tr. apply Forall_forall. intros c Hi a ->. exact (Hpushless _ _ _ _ Hi). }
  destruct (@lift _ _ _ _ _ _ T down user P Hclear able Hu Hcmd Hrun Hbegin Hgo Hend HS HC Hinit _ _ _ _ H) as (l & q & HP & F).
  destruct HP as (HC & Sh & HL). split; [apply (c_good HC)|split; [apply (c_ans HC)|]].
  intros Ho Hc. apply (c_open HC) in Ho. destruct (HL Ho) as [L1 L2 L3 L4 L5].
  apply L2. right. tauto.
Qed.
End Debounce.
