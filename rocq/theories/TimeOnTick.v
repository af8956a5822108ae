(** iterator_on_tick. *)
From Verif Require Import Base SubscrModel SchedModel SchedProofs SchedExec TimeModel TimeLift TimeSpec TimeProofs.
Set Implicit Arguments.

Lemma tick_mod n k : 0 < n -> S (k mod n) mod n = S k mod n.
Proof. intros. rewrite <- (Nat.add_1_l (k mod n)), Nat.add_mod_idemp_r by lia. reflexivity. Qed.
Lemma tick_div n k : 0 < n -> S k / n = k / n + (if S (k mod n) mod n =? 0 then 1 else 0) /\
  (S (k mod n) mod n <> 0 -> S k mod n = S (k mod n)).
Proof.
  intros Hn. assert (H1 := Nat.div_mod k n ltac:(lia)). assert (H2 := Nat.mod_upper_bound k n ltac:(lia)).
  destruct (Nat.eq_dec (S (k mod n)) n) as [E|E].
  - rewrite E, Nat.mod_same by lia. cbn [Nat.eqb]. split; [|congruence].
    symmetry. apply Nat.div_unique with 0; lia.
  - assert (L : S (k mod n) < n) by lia. rewrite (Nat.mod_small _ _ L). cbn [Nat.eqb]. split.
    + symmetry. apply Nat.div_unique with (S (k mod n)); lia.
    + intros _. symmetry. apply Nat.mod_unique with (k / n); lia.
Qed.

Section OnTick.
Variables A B E X : Type.
Variable item : nat -> option B.
Variable n : nat.
Variable now0 : bool.
Hypothesis Hn : 0 < n.
Variable down : list (ncall B E) -> bool * list (req X).
Variable user : X -> nat -> list (tev A B E) -> X * bool * list (cmd A E X).
Notation O := (nat * nat)%type.
Notation W := (world A B E unit O X).
Notation K := (clo O X).
Notation T := (on_tick (A:=A) (E:=E) (X:=X) item n now0).
Notation ans := (@on_tick_answers A B E item now0).
Notation core := (core down (on_ticks down item n now0) ans).
Notation first := (first_items item now0).

Definition shape (w : work K) : Prop := exists lst o, w = WContinuous lst (KO o).
Definition mine (ph : option nat) (tr : list (tev A B E)) (b : bool) (w : work K) : Prop :=
  exists lst seen k, w = WContinuous lst (KO (seen, length (values tr))) /\
  match ph with Some _ => k + (if b then 0 else 1) = ticks tr | None => k = ticks tr end /\
  (item (length (values tr)) <> None -> length (values tr) = first + k / n /\ seen = k mod n).

Record live ph l q (w : W) : Prop := mkLive {
  lv_born : w_born w = some (since (w_tr w));
  lv_task : if w_born w then one (mine ph (w_tr w)) l q else l = [] /\ q = [] /\ values (w_tr w) = [] /\ ticks (w_tr w) = 0;
  lv_sub : is_sub (last (w_tr w) XEnd) = true -> values (w_tr w) = []
}.
Definition P ph (now : nat) l q (w : W) : Prop :=
  core ph now (w_tr w) (w_shut w) /\ shaped shape l q /\ (w_shut w = false -> live ph l q w).

Lemma Hclear ph now l q (w : W) : P ph now l q w <-> P ph now l q (clear w).
Proof. unfold P. split; intros (H1 & H2 & H3); (split; [auto|split; [auto|]]); intros Hs; destruct (H3 Hs); split; auto. Qed.

Lemma vr_cont now o : vr now [QSched 0 KContinuous (KO o)] = [QS (O:=O) (X:=X) (WContinuous 0 (KO o))].
Proof. reflexivity. Qed.
Lemma mine_same ph tr e b w : match e with XUp _ => True | _ => False end -> mine ph tr b w -> mine ph (tr ++ [e]) b w.
Proof. unfold mine. intros He (s & cur & k & H1 & H2 & H3). exists s, cur, k. destruct e; try destruct He; snocs; auto. Qed.

Lemma live_same ph l q w w' e : w_born w = true -> match e with XUp _ => True | _ => False end -> live ph l q w ->
  w_born w' = true -> w_tr w' = w_tr w ++ [e] -> live ph l q w'.
Proof.
  intros Hb He [L1 L2 L3] Hb' Et. rewrite Hb in *. destruct e; try destruct He. split; rewrite Et; snocs; rewrite ?Hb'; auto.
  - refine (one_imp _ _ L2). intros. apply mine_same; simpl; auto.
  - rewrite last_last. discriminate.
Qed.

Lemma Hcmd ph now l q (w : W) c : is_up c -> Forall (@rq_ok O X) (w_rs w) ->
  P ph now l (q ++ vr now (w_rs w)) w ->
  Forall (@rq_ok O X) (w_rs (do_cmd T down w c)) /\
  P ph now l (q ++ vr now (w_rs (do_cmd T down w c))) (do_cmd T down w c).
Proof.
  intros Hc F HP. pose proof HP as (HC & HSh & HL). destruct c as [|c|r]; [| |destruct Hc].
  - cbn [do_cmd]. destruct (w_born w) eqn:Hb; [split; [auto|split; auto]|].
    cbn [on_tick t_sub t_torn].
    assert (Quiet : now0 = false \/ item 0 = None -> let w1 := ask (QSched 0 KContinuous (KO (0, 0))) (note XSub (set_born w)) in
      Forall (@rq_ok O X) (w_rs w1) /\ P ph now l (q ++ vr now (w_rs w1)) w1).
    { intros Hq. unfold P. wcbn. split. { rqs. } rewrite vr_app, app_assoc, vr_cont. split; [|split].
      - apply core_note; simpl; auto.
      - apply shaped_more; auto. repeat constructor. exists 0, (0, 0). auto.
      - intros Hs. destruct (HL Hs) as [L1 L2 L3]. rewrite Hb in *. destruct L2 as (-> & L2 & L4 & L5).
        assert (Hsn : since (w_tr w) = None) by (destruct (since (w_tr w)); [discriminate|auto]).
        split; wcbn; snocs; rewrite ?Hsn; auto. rewrite L2. constructor. exists 0, 0, 0. snocs. rewrite L4, L5, Hsn. split; auto.
        rewrite andb_true_r.
        rewrite (c_tick HC). split; [destruct ph; auto|]. intros Hi. cbn [length] in *. rewrite Nat.div_0_l, Nat.mod_0_l by lia.
        split; auto. unfold first_items. destruct Hq as [->| ->]; auto. destruct now0; auto. }
    assert (Hd : now0 = true \/ now0 = false) by (destruct now0; auto).
    destruct Hd as [Hnow|Hnow]; rewrite Hnow; [|apply Quiet; auto]. destruct (item 0) as [b|] eqn:Hi0; [|apply Quiet; auto]. clear Quiet.
    destruct (w_shut w) eqn:Hs.
    + rewrite tell_shut by auto. unfold P. wcbn. split. { rqs. } rewrite vr_app, app_assoc, vr_cont, Hs. split; [|split; [|discriminate]].
      * apply core_note; simpl; auto.
      * apply shaped_more; auto. repeat constructor. unfold shape; eauto.
    + destruct (HL eq_refl) as [L1 L2 L3]. rewrite Hb in *. destruct L2 as (-> & L2 & L4 & L5).
      match goal with |- context [tell false down (Nxt b) ?w1] => destruct (@tell_open A B E unit O X false down (Nxt b) w1) as (rs & -> & R1 & R2); [exact Hs|] end.
      revert R2. wcbn. intros R2. unfold P. wcbn. split. { rqs. }
      rewrite !vr_app, R2, andb_false_r, vr_cont, app_nil_r, app_assoc. split; [|split].
      * apply core_out.
        -- apply core_note; simpl; auto.
        -- split; [rewrite open_same by discriminate; apply (core_isopen HC); auto|]. snocs. rewrite L4. cbn [length]. split; auto.
           left. split; auto. unfold last_is; eauto.
        -- right. simpl. rewrite last_last, Hnow. auto.
      * apply shaped_more; auto. repeat constructor. unfold shape; eauto.
      * intros _. assert (Hsn : since (w_tr w) = None) by (destruct (since (w_tr w)); [discriminate|auto]).
        split; wcbn; snocs; rewrite ?Hsn; auto; [|rewrite last_last; discriminate]. rewrite L2. constructor. exists 0, 0, 0. snocs. rewrite L4, L5, Hsn. split; auto.
        rewrite andb_true_r.
        rewrite (c_tick HC). split; [destruct ph; auto|]. intros Hi. cbn [length app] in *. rewrite Nat.div_0_l, Nat.mod_0_l by lia.
        split; auto. unfold first_items. rewrite Hnow, Hi0. auto.
  - cbn [do_cmd]. unfold up. destruct (w_born w) eqn:Hb; [|split; [auto|split; auto]]. cbn [negb].
    destruct c as [a|x| |]; try (destruct (w_over w) eqn:Hov; [split; [exact F|exact HP]; fail|]); cbn [on_tick t_up t_torn]; wcbn.
    1, 2, 3: split; auto; unfold P; wcbn; (split; [apply core_note; simpl; auto|split; [auto|]]);
      intros Hs; eapply (@live_same ph _ _ w); simpl; auto; simpl; auto.
    destruct (w_shut w) eqn:Hs.
    + rewrite tell_shut by (wcbn; auto). wcbn. split. { rqs. }
      rewrite vr_app, app_assoc. change (vr now [_]) with [QC O X]. unfold P. wcbn. rewrite Hs.
      split; [|split; [|discriminate]]; [apply core_note; simpl; auto|apply shaped_more; [auto|repeat constructor]].
    + match goal with |- context [tell false down Uns ?w1] => destruct (@tell_open A B E unit O X false down Uns w1) as (rs & -> & R1 & R2); [exact Hs|] end.
      unfold P. wcbn. split. { rqs. }
      rewrite !vr_app, R2, !app_assoc. cbn [closes andb]. split; [|split; [|discriminate]].
      * apply (@core_ans A B E X down _ ans); simpl; auto. split; [|unfold last_is; eauto].
        rewrite open_same by discriminate. apply (core_isopen HC); auto.
      * rewrite app_nil_r. apply shaped_more; [auto|repeat constructor].
Qed.

Lemma Hrun fuel t now l1 wk l2 q (w : W) wk' r w' rs :
  P (Some t) now (l1 ++ (false, wk) :: l2) q w -> Forall (fun x => fst x = true) l1 -> owned wk = true ->
  wtick (run T down user) fuel wk t w = Some (wk', r, w', rs) ->
  Forall (@rq_ok O X) rs /\
  P (Some t) now (l1 ++ (if r then [] else [(true, wk')]) ++ l2) (q ++ vr now rs) w'.
Proof.
  intros (HC & Sh & HL) _ _. destruct (shaped_run _ _ _ Sh) as [(lst & [seen p] & ->) Sh'].
  cbn [wtick run on_tick t_run t_torn]. wcbn.
  destruct (w_shut w) eqn:Hs.
  { intros Y; injection Y as <- <- <- <-. wcbn. split; auto. cbn [vr flat_map]. rewrite app_nil_r. unfold P. wcbn. rewrite Hs.
    split; [auto|]. split; [|discriminate]. apply (Sh' true (WContinuous lst (KO (seen, p)))). unfold shape; eauto. }
  destruct (HL eq_refl) as [L1 L2 L3].
  destruct (w_born w) eqn:Hb; [|destruct L2 as [L2 _]; destruct l1; discriminate].
  apply one_run in L2. destruct L2 as (-> & -> & -> & lst' & seen' & k & E1 & E2 & E3). injection E1 as <- <- ->.
  set (p := length (values (w_tr w))) in *. cbn [app] in *. rewrite Nat.add_1_r in E2.
  assert (Silent : item p = None \/ S seen mod n <> 0 -> P (Some t) now [(true, WContinuous (Nat.max lst t) (KO (S seen, p)))] [] (clear w)).
  { intros Hq. unfold P. wcbn. rewrite Hs. split; [auto|]. split; [apply (Sh' false); unfold shape; eauto|].
    intros _. split; wcbn; rewrite ?Hb; auto. constructor. exists (Nat.max lst t), (S seen), (S k). fold p. split; auto.
    split; [lia|]. intros Hi. destruct Hq as [Hq|Hq]; [congruence|]. destruct (E3 Hi) as [E4 E5]. subst seen.
    destruct (tick_div k Hn) as [D1 D2]. apply Nat.eqb_neq in Hq as Hq'. rewrite Hq' in D1. rewrite D1, Nat.add_0_r. split; auto. symmetry. auto. }
  destruct (S seen mod n =? 0) eqn:Hm.
  2: { intros Y; injection Y as <- <- <- <-. wcbn. split; auto. apply Silent. apply Nat.eqb_neq in Hm; auto. }
  destruct (item p) as [b|] eqn:Hi.
  2: { intros Y; injection Y as <- <- <- <-. wcbn. split; auto. }
  clear Silent. destruct (E3 ltac:(discriminate)) as [E4 E5]. apply Nat.eqb_eq in Hm. subst seen.
  destruct (tick_div k Hn) as [D1 D2]. rewrite Hm in D1. cbn [Nat.eqb] in D1. assert (D3 := tick_mod k Hn). rewrite Hm in D3.
  assert (Hg : on_ticks down item n now0 (w_tr w) (XOut (Nxt b))).
  { split; [apply (core_isopen HC); auto|]. split; [auto|]. right. split; [apply (c_tick HC)|]. rewrite <- E2, <- D3. split; auto. fold p. lia. }
  destruct (@tell_open A B E unit O X false down (Nxt b) (clear w)) as (rs1 & -> & R1 & R2); [exact Hs|].
  wcbn. revert R2. wcbn. rewrite andb_false_r. cbn [app]. intros R2.
  destruct (item (S p)) as [b'|] eqn:Hi'.
  - intros Y; injection Y as <- <- <- <-. wcbn. split; auto. unfold P. wcbn. rewrite R2. split; [|split].
    + apply core_out; auto. right. simpl. fold p. rewrite Hi'. destruct (_ && _); auto.
    + apply (Sh' false). unfold shape; eauto.
    + intros _. split; wcbn; snocs; rewrite ?Hb; auto; [|rewrite last_last; discriminate]. constructor.
      exists (Nat.max lst t), 0, (S k). snocs. rewrite app_length, Nat.add_1_r. fold p. split; auto. split; [lia|].
      intros _. rewrite D1, <- D3. split; [|auto]. lia.
  - destruct (closes down (Nxt b) (w_tr w)) eqn:Hcl.
    + rewrite tell_shut by auto. intros Y; injection Y as <- <- <- <-. wcbn. split; auto. unfold P. wcbn. rewrite R2. split; [|split; [|discriminate]].
      * rewrite <- Hcl. apply core_out; auto.
      * apply (Sh' true (WContinuous lst (KO (0, 0)))). unfold shape; eauto.
    + match goal with |- context [tell false down Cmp ?w1] => destruct (@tell_open A B E unit O X false down Cmp w1) as (rs2 & -> & R3 & R4); [auto|] end.
      intros Y; injection Y as <- <- <- <-. unfold P. wcbn. split. { rqs. } rewrite vr_app, R2, R4. cbn [closes andb app]. split; [|split; [|discriminate]].
      * apply (@core_ans2 A B E X down _ ans); auto.
        -- split; [apply open_out; split; [apply (core_isopen HC); auto|]; split; eauto|]. split; [unfold last_is; eauto|].
           snocs. rewrite app_length, Nat.add_1_r. auto.
        -- simpl. fold p. rewrite Hi'. destruct (now0 && is_sub (last (w_tr w) XEnd)) eqn:Hx; auto. exfalso.
           apply andb_true_iff in Hx. destruct Hx as [-> Hx]. specialize (L3 Hx). unfold p in *. rewrite L3 in *. cbn [length] in *.
           unfold first_items in E4. rewrite Hi in E4. discriminate.
      * apply (Sh' true (WContinuous lst (KO (0, 0)))). unfold shape; eauto.
Qed.

Lemma Hbegin now l q (w : W) u : P None now l q w -> Forall (fun x => fst x = true) l ->
  P (Some u) (Nat.max now u) (map (fun x => (false, snd x)) l) q (note (XTick u) w).
Proof.
  intros (HC & Sh & HL) F. unfold P. wcbn. split; [|split].
  - apply core_begin; simpl; auto.
  - apply shaped_begin; auto.
  - intros Hs. destruct (HL Hs) as [L1 L2 L3]. split; wcbn; snocs; auto.
    + destruct (w_born w).
      * refine (one_begin _ _ L2). intros b wk (lst & seen & k & E1 & E2 & E3). exists lst, seen, k. snocs. rewrite <- L1. cbn [some]. split; auto.
        split; auto. lia.
      * destruct L2 as (-> & -> & L2 & L4). rewrite <- L1. auto.
    + rewrite last_last. discriminate.
Qed.

Lemma Hend t now l (w : W) : P (Some t) now l [] w -> Forall (fun x => fst x = true) l -> P None now l [] (note XEnd w).
Proof.
  intros (HC & Sh & HL) F. unfold P. wcbn. split; [|split; auto].
  - apply (@core_end _ _ _ _ _ _ _ t); auto. simpl. intros Ho. apply (c_open HC) in Ho.
    destruct (HL Ho) as [L1 L2 L3]. intros Hi. destruct (w_born w).
    + destruct (since (w_tr w)); [|discriminate]. apply one_end in L2; auto. destruct L2 as (wk & lst & seen & k & E1 & E2 & E3).
      rewrite Nat.add_0_r in E2. subst k. destruct (E3 Hi). auto.
    + destruct (since (w_tr w)); [discriminate|]. destruct L2 as (_ & _ & -> & _). auto.
  - intros Hs. destruct (HL Hs) as [L1 L2 L3]. split; wcbn; snocs; auto.
    + destruct (w_born w); [|auto]. inversion L2 as [b wk H E1 E2|]; subst. apply Forall_inv in F. cbn in F. subst b. constructor.
      destruct H as (lst & seen & k & M1 & M2 & M3). exists lst, seen, k. snocs. rewrite Nat.add_0_r in M2. auto.
    + rewrite last_last. discriminate.
Qed.

Lemma HS ph now l wk q (w : W) : P ph now l (QS wk :: q) w -> owned wk = true -> P ph now (l ++ [(false, wk)]) q w.
Proof.
  intros (HC & Sh & HL) _. split; [auto|split; [apply shaped_HS; auto|]].
  intros Hs. destruct (HL Hs) as [L1 L2 L3]. split; auto.
  destruct (w_born w); [apply one_HS; auto|]. destruct L2 as (_ & L2 & _). discriminate.
Qed.
Lemma HC ph now l q (w : W) : P ph now l (QC _ _ :: q) w -> P ph now [] q w.
Proof.
  intros (HC & Sh & HL). split; [auto|split; [eapply shaped_HC; eauto|]].
  intros Hs. destruct (HL Hs) as [L1 L2 L3]. exfalso.
  destruct (w_born w); [eapply one_HC; eauto|]. destruct L2 as (_ & L2 & _). discriminate.
Qed.
Lemma Hinit : P None 0 [] [] (mkW (t_new T) false false false false [] []).
Proof.
  unfold P. wcbn. split; [apply core_init|]. split; [split; constructor|].
  intros _. split; cbn; auto.
Qed.

Theorem on_tick_ok fuel depth h m : syss T down user fuel (start T depth) h = Fine m ->
  let tr := w_tr (m_world m) in
  always (on_ticks down item n now0) tr /\ answered down ans tr.
Proof.
  intros H.
  destruct (@lift_any _ _ _ _ _ _ T down user P Hclear Hcmd Hrun Hbegin Hend HS HC Hinit _ _ _ _ H) as (l & q & HP & F).
  destruct HP as (HC & Sh & HL). split; [apply (c_good HC)|apply (c_ans HC)].
Qed.
End OnTick.
