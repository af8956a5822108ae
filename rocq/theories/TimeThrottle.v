(** throttle_time. *)
From Coq Require Import Permutation.
From Verif Require Import Base SubscrModel SchedModel SchedProofs SchedExec TimeModel TimeLift TimeSpec TimeProofs.
Set Implicit Arguments.

Section Throttle.
Variables A E X : Type.
Variable d : nat.
Variables leading trailing : bool.
Variable down : list (ncall A E) -> bool * list (req X).
Variable user : X -> nat -> list (tev A A E) -> X * bool * list (cmd A E X).
Notation O := unit.
Notation S := (throttle_st A).
Notation W := (world A A E (throttle_st A) O X).
Notation K := (clo O X).
Notation T := (@throttle A E X d leading trailing).
(** What is asked is a little more general than [throttled] and [throttle_answers], for TimeReThrottle.v:
    [late] says what is known when an error is passed on, [strict] whether it is passed on at once. *)
Variable strict : bool.
Variable late : E -> list (tev A A E) -> Prop.
Hypothesis Hlate : forall x p, last_is p (XUp (Err x)) -> late x p.
Definition good (p : list (tev A A E)) (e : tev A A E) : Prop :=
  match e with
  | XOut c => open down p /\
      match c with
      | Nxt a => leading = true /\ last_is p (XUp (Nxt a)) /\ (ticking p = false -> gap p = 0) \/
                 trailing = true /\ ticking p = true /\ In a (map snd (pushes p))
      | Cmp => In (XUp Cmp) p
      | Uns => In (XUp Uns) p
      | Err x => late x p
      end
  | XEnd => open down p -> In (XUp Cmp) p \/ In (XUp Uns) p -> 0 < d ->
      exists ps x, pushes p = ps ++ [x] /\ given_time p < fst x + d
  | _ => True
  end.
Definition ans (p : list (tev A A E)) (e : tev A A E) : option (ncall A E) :=
  match e with
  | XUp (Err x) => if strict then Some (Err x) else None
  | XUp (Nxt a) => if leading then match pushes p with [] => Some (Nxt a) | _ => None end else None
  | _ => None
  end.
Notation core := (core down good ans).

Lemma gap_snoc (l : list (tev A A E)) e : gap (l ++ [e]) = match e with XEnd => 0 | XOut (Nxt _) => Datatypes.S (gap l) | _ => gap l end.
Proof. unfold gap. rewrite fold_left_app. destruct e as [| | |[]|[]]; reflexivity. Qed.

Definition shape (w : work K) : Prop := exists lst, w = WContinuous lst (KO Datatypes.tt).
Definition mine (tr : list (tev A A E)) (s : S) (dl : nat) (b : bool) (w : work K) : Prop :=
  shape w /\ (b = true -> th_last s = given_time tr /\ (0 < d -> trailing = true -> th_value s = None \/ given_time tr < dl)).
Definition olist {Y} (o : option Y) : list Y := match o with Some y => [y] | None => [] end.

Record live (ph : option nat) (now : nat) l q (tr : list (tev A A E)) (s : S) (over : bool) : Prop := mkLive {
  lv_task : match th_deadline s with
            | Some dl => one (mine tr s dl) l q /\ exists ps x, pushes tr = ps ++ [x] /\ dl <= fst x + d
            | None => l = [] /\ q = [] end;
  lv_over : th_done s = true \/ th_off s = true ->
    over = true /\ trailing = true /\ th_value s <> None /\ th_deadline s <> None;
  lv_done : th_done s = true -> In (XUp Cmp) tr;
  lv_off : th_off s = true -> In (XUp Uns) tr;
  lv_in : In (XUp Cmp) tr \/ In (XUp Uns) tr -> th_done s = true \/ th_off s = true;
  lv_last : th_last s <= now;
  lv_perm : exists rest, Permutation (values tr ++ olist (th_value s) ++ rest) (map snd (pushes tr));
  lv_gap : ph = None -> 0 < gap tr -> th_deadline s <> None
}.
Definition P ph now l q (w : W) : Prop :=
  core ph now (w_tr w) (w_shut w) /\ shaped shape l q /\
  (exists rest, Permutation (values (w_tr w) ++ rest) (map snd (pushes (w_tr w)))) /\
  (w_shut w = false -> live ph now l q (w_tr w) (w_st w) (w_over w)).

Lemma Hclear ph now l q (w : W) : P ph now l q w <-> P ph now l q (clear w).
Proof. reflexivity. Qed.
Lemma vr_cont now : vr now [QSched 0 KContinuous (KO Datatypes.tt)] = [QS (O:=O) (X:=X) (WContinuous 0 (KO Datatypes.tt))].
Proof. reflexivity. Qed.

Lemma qs_ok : Forall (fun x : qop O X => match x with QS w => shape w | QC _ _ => True end) [QS (WContinuous 0 (KO Datatypes.tt))].
Proof. constructor; [unfold shape; eauto|constructor]. Qed.
Lemma mine_same tr s dl e b w : match e with XTick _ | XOut _ => False | _ => True end -> mine tr s dl b w -> mine (tr ++ [e]) s dl b w.
Proof. unfold mine. intros He [H1 H2]. snocs. split; auto. destruct e; auto; destruct He. Qed.

Lemma perm_note (tr : list (tev A A E)) e : match e with XOut (Nxt _) => False | _ => True end ->
  (exists rest, Permutation (values tr ++ rest) (map snd (pushes tr))) ->
  exists rest, Permutation (values (tr ++ [e]) ++ rest) (map snd (pushes (tr ++ [e]))).
Proof.
  intros He [rest H]. snocs. destruct e as [| | |[a|x| |]|[]]; try destruct He; rewrite ?app_nil_r; eauto.
  exists (rest ++ [a]). rewrite map_app, app_assoc. apply Permutation_app_tail. auto.
Qed.

(** What changes nothing: the record grows by an event that concerns nobody. *)
Lemma live_note ph now l q tr s o o' e : match e with XSub | XUp (Err _) => True | _ => False end -> (o = true -> o' = true) ->
  live ph now l q tr s o -> live ph now l q (tr ++ [e]) s o'.
Proof.
  intros He Hoo [L1 L2 L3 L4 L5 L6 L7 L8]. destruct e as [| | |[]|]; try destruct He; split; snocs; rewrite ?app_nil_r; rewrite ?gap_snoc; auto.
  all: try (rewrite !in_app_iff; simpl; intros [[?|[?|[]]]|[?|[?|[]]]]; auto; discriminate).
  all: try (intros; apply in_or_app; auto; fail).
  all: try (intros Hd; destruct (L2 Hd) as (? & ? & ?); auto; fail).
  all: destruct (th_deadline s); auto; destruct L1 as [L1 L1']; (split; [|auto]); refine (one_imp _ _ L1); intros; apply mine_same; simpl; auto.
Qed.

(** The source is over, and did not fail. *)
Lemma over_ok ph now l q (w : W) c : c = Cmp \/ c = Uns -> (c = Uns -> w_shut w = false) -> Forall (@rq_ok O X) (w_rs w) ->
  P ph now l (q ++ vr now (w_rs w)) w -> th_done (w_st w) = false \/ c = Cmp -> 
  let w1 := set_over (note (XUp c) w) in
  let s := w_st w in
  let w' := if th_idle trailing s
    then tell true down c (ask (QCancel 0) (st (mkTh None (th_last s) None (match c with Cmp => true | _ => th_done s end) (match c with Cmp => th_off s | _ => true end)) w1))
    else st (mkTh (th_value s) (th_last s) (th_deadline s) (match c with Cmp => true | _ => th_done s end) (match c with Cmp => th_off s | _ => true end)) w1 in
  Forall (@rq_ok O X) (w_rs w') /\ P ph now l (q ++ vr now (w_rs w')) w'.
Proof.
  intros Hc Hsc F (HC & HSh & HPm & HL) Hdn w1 s w'.
  assert (Pn : exists rest, Permutation (values (w_tr w ++ [XUp c]) ++ rest) (map snd (pushes (w_tr w ++ [XUp c])))).
  { apply perm_note; auto. }
  unfold w', w1, s in *. clear w' w1 s.
  destruct (th_idle trailing (w_st w)) eqn:Hid.
  - destruct (w_shut w) eqn:Hs.
    + rewrite tell_shut by (wcbn; auto). unfold P. wcbn. split; [rqs|]. rewrite vr_app, app_assoc, Hs.
      split; [apply core_note; simpl; auto|split; [apply shaped_more; [auto|repeat constructor]|split; [auto|discriminate]]].
    + match goal with |- context [tell true down c ?w1] => destruct (@tell_open A A E S O X true down c w1) as (rs & -> & R1 & R2); [exact Hs|] end.
      assert (Ecl : closes down c (w_tr w ++ [XUp c]) = true) by (destruct Hc; subst c; auto).
      revert R2. unfold P. wcbn. rewrite Ecl. cbn [andb]. intros R2. split; [rqs|]. rewrite !vr_app, R2, !app_assoc.
      split; [|split; [|split; [apply perm_note; [destruct Hc; subst; simpl; auto|auto]|discriminate]]].
      * rewrite <- Ecl. apply core_out; auto.
        -- apply core_note; auto; destruct Hc; subst; simpl; auto.
        -- split; [rewrite open_same by discriminate; apply (core_isopen HC); auto|]. destruct Hc; subst c; apply in_or_app; simpl; auto.
      * apply shaped_more; [apply shaped_more; [auto|repeat constructor]|repeat constructor].
  - unfold P. wcbn. split; auto. split; [apply core_note; auto; destruct Hc; subst; simpl; auto|]. split; auto.
    split; auto. intros Hs. destruct (HL Hs) as [L1 L2 L3 L4 L5 L6 L7 L8].
    unfold th_idle in Hid. apply orb_false_iff in Hid. destruct Hid as [I1 I2]. apply negb_false_iff, andb_true_iff in I2. destruct I2 as [I2 I3].
    assert (U : pushes (w_tr w ++ [XUp c]) = pushes (w_tr w)) by (snocs; destruct Hc; subst; rewrite ?app_nil_r; auto).
    split; cbn [th_deadline th_value th_done th_off th_last]; rewrite ?U; snocs; rewrite ?gap_snoc; auto.
    + destruct (th_deadline (w_st w)); auto. destruct L1 as [L1 L1']. split; auto. refine (one_imp _ _ L1).
      intros b wk [M1 M2]. split; auto. cbn [th_last th_value]. snocs. auto.
    + intros _. split; auto. split; auto. destruct (th_value (w_st w)); [|discriminate]. destruct (th_deadline (w_st w)); [|discriminate]. split; discriminate.
    + destruct Hc; subst c; intros; apply in_or_app; simpl; auto.
    + destruct Hc; subst c; intros; apply in_or_app; simpl; auto.
    + destruct Hc; subst c; auto.
Qed.

Lemma Hcmd ph now l q (w : W) c : is_up c -> Forall (@rq_ok O X) (w_rs w) ->
  P ph now l (q ++ vr now (w_rs w)) w ->
  Forall (@rq_ok O X) (w_rs (do_cmd T down w c)) /\
  P ph now l (q ++ vr now (w_rs (do_cmd T down w c))) (do_cmd T down w c).
Proof.
  intros Hc F HP. pose proof HP as (HC & HSh & HPm & HL). destruct c as [|c|r]; [| |destruct Hc].
  - cbn [do_cmd]. destruct (w_born w) eqn:Hb; [split; [auto|split; auto]|].
    cbn [throttle t_sub]. wcbn. unfold P. wcbn. split; auto. split; [apply core_note; simpl; auto|]. split; auto.
    split; [apply perm_note; simpl; auto|]. intros Hs. eapply live_note; simpl; eauto.
  - cbn [do_cmd]. unfold up. destruct (w_born w) eqn:Hb; [|split; [auto|split; auto]]. cbn [negb].
    destruct c as [a|x| |]; try (destruct (w_over w) eqn:Hov; [split; [exact F|exact HP]; fail|]); cbn [throttle t_up t_torn throttle_up]; wcbn.
    + (* a value *)
      destruct (w_shut w) eqn:Hs.
      { (* nobody listens *)
        assert (Cn : core ph now (w_tr w ++ [XUp (Nxt a)]) true) by (apply core_note; simpl; auto).
        assert (Pn := @perm_note (w_tr w) (XUp (Nxt a)) Logic.I HPm).
        assert (Hld : leading = true \/ leading = false) by (destruct leading; auto).
        assert (Htd : trailing = true \/ trailing = false) by (destruct trailing; auto).
        destruct (th_deadline (w_st w)) as [dl|].
        - destruct (th_last (w_st w) <? dl); [destruct Htd as [Htd|Htd]; rewrite Htd|]; unfold P; wcbn; (split; [rqs|]); rewrite ?Hs;
            (split; [auto|split; [auto|split; [auto|discriminate]]]).
        - assert (E1 : forall s : S, tell true down (Nxt a) (st s (note (XUp (Nxt a)) w)) = st s (note (XUp (Nxt a)) w)) by (intros; apply tell_shut; auto).
          destruct Hld as [Hld|Hld]; rewrite Hld; [rewrite E1|destruct Htd as [Htd|Htd]; rewrite Htd]; unfold P; wcbn; (split; [rqs|]); rewrite ?Hs, vr_app, app_assoc, vr_cont;
            (split; [auto|split; [apply shaped_more; [auto|apply qs_ok]|split; [auto|discriminate]]]). }
      destruct (HL eq_refl) as [L1 L2 L3 L4 L5 L6 [rest L7] L8].
      assert (Nd : th_done (w_st w) = false /\ th_off (w_st w) = false).
      { destruct (th_done (w_st w)) eqn:E1; [destruct L2; auto; congruence|]. destruct (th_off (w_st w)) eqn:E2; auto. destruct L2; auto; congruence. }
      destruct Nd as [Nd1 Nd2].
      assert (Ni : forall e tr, In (XUp e) (tr ++ [XUp (Nxt a)]) -> e = Cmp \/ e = Uns -> In (@XUp A A E e) tr).
      { intros e tr. rewrite in_app_iff. simpl. intros [?|[?|[]]]; auto. intros [->| ->]; discriminate. }
      assert (LI : In (XUp Cmp) (w_tr w ++ [XUp (Nxt a)]) \/ In (XUp Uns) (w_tr w ++ [XUp (Nxt a)]) -> False).
      { intros Hi. destruct L5 as [?|?]; try congruence. destruct Hi as [Hi|Hi]; [left|right]; eauto. }
      assert (Pm1 : Permutation (values (w_tr w) ++ [a] ++ (olist (th_value (w_st w)) ++ rest)) (map snd (pushes (w_tr w)) ++ [a])).
      { rewrite <- L7, Permutation_app_comm. cbn [app]. rewrite <- (Permutation_cons_append _ a). constructor. apply Permutation_app_comm. }
      (* the stored value is replaced, the deadline stays or grows *)
      assert (Store : forall dl dl', th_deadline (w_st w) = Some dl -> (dl' = dl /\ th_last (w_st w) < dl \/ dl' = th_last (w_st w) + d) ->
        live ph now l (q ++ vr now (w_rs w)) (w_tr w ++ [XUp (Nxt a)]) (mkTh (Some a) (th_last (w_st w)) (Some dl') (th_done (w_st w)) (th_off (w_st w))) (w_over w)).
      { intros dl dl' Hdl Hdl'. rewrite Hdl in L1. destruct L1 as [L1 (ps & x & Hps & Hle)].
        split; cbn [th_deadline th_value th_done th_off th_last]; rewrite ?Nd1, ?Nd2; try discriminate; try (intros [|]; discriminate); snocs; auto; try tauto.
        - split.
          + refine (one_imp _ _ L1). intros b wk [M1 M2]. split; auto. snocs. intros Hbt. destruct (M2 Hbt) as [M3 M4]. split; auto.
            intros Hd0 _. right. cbn [th_value th_last] in *. destruct Hdl' as [[-> ?]| ->]; lia.
          + exists (ps ++ [x]), (clock (w_tr w), a). rewrite Hps. split; auto. cbn [fst]. rewrite <- (c_clock HC).
            destruct Hdl' as [[-> ?]| ->]; [|lia]. transitivity (fst x + d); auto. apply Nat.add_le_mono_r. rewrite (c_clock HC).
            apply pushes_le. rewrite Hps. apply in_elt.
        - exists (olist (th_value (w_st w)) ++ rest). rewrite map_app. exact Pm1. }
      assert (Cn : ans (w_tr w) (XUp (Nxt a)) = None -> core ph now (w_tr w ++ [XUp (Nxt a)]) false) by (intros; apply core_note; simpl; auto).
      destruct (th_deadline (w_st w)) as [dl|] eqn:Hdl.
      * assert (Hne : ans (w_tr w) (XUp (Nxt a)) = None).
        { simpl. destruct leading; auto. destruct L1 as [_ (ps & x & Hps & _)]. rewrite Hps. destruct ps; auto. }
        specialize (Cn Hne).
        destruct (th_last (w_st w) <? dl) eqn:Hlt; [destruct (bool_dec trailing true) as [Ht|Ht]|].
        -- rewrite Ht. unfold P. wcbn. split; auto. rewrite Hs. split; auto. split; auto. split; [apply perm_note; simpl; auto|]. intros _.
           apply Store with dl; auto. left. split; auto. apply Nat.ltb_lt; auto.
        -- apply not_true_is_false in Ht. rewrite Ht. unfold P. wcbn. split; auto. rewrite Hs. split; auto. split; auto. split; [apply perm_note; simpl; auto|]. intros _.
           split; snocs; auto; try tauto; rewrite ?Hdl, ?Nd1, ?Nd2; try discriminate; try (intros [|]; discriminate).
           ++ destruct L1 as [L1 (ps & x & Hps & Hle)]. split; [refine (one_imp _ _ L1); intros; apply mine_same; simpl; auto|].
              exists (ps ++ [x]), (clock (w_tr w), a). rewrite Hps. split; auto. cbn [fst]. transitivity (fst x + d); auto. apply Nat.add_le_mono_r.
              apply pushes_le. rewrite Hps. apply in_elt.
           ++ exists (rest ++ [a]). rewrite map_app, !app_assoc. apply Permutation_app_tail. rewrite <- app_assoc. auto.
        -- unfold P. wcbn. split; auto. rewrite Hs. split; auto. split; auto. split; [apply perm_note; simpl; auto|]. intros _.
           apply Store with dl; auto.
      * (* no window *)
        destruct L1 as [-> L1q].
        assert (Fresh : forall tr' v, pushes tr' = pushes (w_tr w) ++ [(clock (w_tr w), a)] -> (forall e, e = Cmp \/ e = Uns -> In (XUp e) tr' -> In (XUp e) (w_tr w)) ->
          (exists rest, Permutation (values tr' ++ olist v ++ rest) (map snd (pushes tr'))) ->
          live ph now [] ((q ++ vr now (w_rs w)) ++ [QS (O:=O) (X:=X) (WContinuous 0 (KO Datatypes.tt))]) tr' (mkTh v (th_last (w_st w)) (Some (th_last (w_st w) + d)) (th_done (w_st w)) (th_off (w_st w))) (w_over w)).
        { intros tr' v Hp Hin Hpm. split; cbn [th_deadline th_value th_done th_off th_last]; rewrite ?Nd1, ?Nd2; try discriminate; try (intros [|]; discriminate); auto.
          - rewrite L1q. split.
            + constructor. split; [unfold shape; eauto|discriminate].
            + exists (pushes (w_tr w)), (clock (w_tr w), a). split; auto. cbn [fst]. rewrite <- (c_clock HC). lia.
          - intros Hi. destruct L5; try congruence. destruct Hi as [Hi|Hi]; [left|right]; auto. }
        assert (Hld : leading = true \/ leading = false) by (destruct leading; auto).
        destruct Hld as [Hld|Hld]; rewrite Hld.
        -- match goal with |- context [tell true down (Nxt a) ?w1] => destruct (@tell_open A A E S O X true down (Nxt a) w1) as (rs & -> & R1 & R2); [exact Hs|] end.
           revert R2. unfold P. wcbn. rewrite andb_true_r. intros R2. split; [rqs|]. rewrite !vr_app, R2, vr_cont, !app_assoc.
           assert (Hg : good (w_tr w ++ [XUp (Nxt a)]) (XOut (Nxt a))).
           { split; [rewrite open_same by discriminate; apply (core_isopen HC); auto|]. left. split; auto. split; [unfold last_is; eauto|].
             snocs. rewrite gap_snoc, (c_tick HC). destruct ph; [discriminate|]. intros _. destruct (gap (w_tr w)); auto. destruct L8; auto. lia. }
           assert (C2 : core ph now ((w_tr w ++ [XUp (Nxt a)]) ++ [XOut (Nxt a)]) (closes down (Nxt a) (w_tr w ++ [XUp (Nxt a)]))).
           { destruct (pushes (w_tr w)) eqn:Hps.
             - apply core_ans; simpl; auto. rewrite Hld, Hps. auto.
             - apply core_out; auto. apply Cn. simpl. rewrite Hld, Hps. auto. }
           split; [auto|].
           split; [apply shaped_more; [apply shaped_more; [auto|destruct (closes down _ _); repeat constructor]|apply qs_ok]|].
           assert (Pm2 : exists rest, Permutation (values ((w_tr w ++ [XUp (Nxt a)]) ++ [XOut (Nxt a)]) ++ olist (th_value (w_st w)) ++ rest)
             (map snd (pushes ((w_tr w ++ [XUp (Nxt a)]) ++ [XOut (Nxt a)])))).
           { exists rest. snocs. rewrite map_app, <- app_assoc. exact Pm1. }
           split; [destruct Pm2; eauto|]. intros Hcl. rewrite Hcl, app_nil_r. apply Fresh; auto.
           ++ snocs. auto.
           ++ intros e He. rewrite in_app_iff. intros [Hi|[Hi|[]]]; [|discriminate]. eapply Ni; eauto.
        -- assert (Hne : ans (w_tr w) (XUp (Nxt a)) = None) by (simpl; rewrite Hld; auto). specialize (Cn Hne).
           assert (Htd : trailing = true \/ trailing = false) by (destruct trailing; auto).
           assert (Pv : forall v, v = Some a \/ v = th_value (w_st w) -> exists rest, Permutation (values (w_tr w ++ [XUp (Nxt a)]) ++ olist v ++ rest)
             (map snd (pushes (w_tr w ++ [XUp (Nxt a)])))).
           { intros v [->| ->]; snocs; rewrite map_app.
             - exists (olist (th_value (w_st w)) ++ rest). exact Pm1.
             - exists (rest ++ [a]). rewrite !app_assoc. apply Permutation_app_tail. rewrite <- app_assoc. exact L7. }
           destruct Htd as [Htd|Htd]; rewrite Htd; unfold P; wcbn; (split; [rqs|]); rewrite vr_app, app_assoc, vr_cont, Hs;
             (split; [auto|split; [apply shaped_more; [auto|apply qs_ok]|split; [apply perm_note; simpl; auto|]]]);
             intros _; (apply Fresh; [snocs; auto|intros e He Hi; eapply Ni; eauto|apply Pv; auto]).
    + (* an error *)
      assert (Pn := @perm_note (w_tr w) (XUp (Err x)) Logic.I HPm).
      destruct (w_shut w) eqn:Hs.
      * rewrite tell_shut by (wcbn; auto). unfold P. wcbn. split; [rqs|]. rewrite vr_app, app_assoc, Hs.
        split; [apply core_note; simpl; auto|split; [apply shaped_more; [auto|repeat constructor]|split; [auto|discriminate]]].
      * match goal with |- context [tell true down (Err x) ?w1] => destruct (@tell_open A A E S O X true down (Err x) w1) as (rs & -> & R1 & R2); [exact Hs|] end.
        revert R2. unfold P. wcbn. cbn [closes andb]. intros R2. split; [rqs|]. rewrite !vr_app, R2, !app_assoc.
        split; [|split; [|split; [apply perm_note; simpl; auto|discriminate]]].
        -- assert (Hg : good (w_tr w ++ [XUp (Err x)]) (XOut (Err x))).
           { split; [|apply Hlate; unfold last_is; eauto]. rewrite open_same by discriminate. apply (core_isopen HC); auto. }
           destruct (bool_dec strict true) as [Hst|Hst].
           ++ apply (@core_ans A A E X down _ ans); auto; simpl; rewrite ?Hst; auto.
           ++ apply (@core_out A A E X down _ ans ph now (w_tr w ++ [XUp (Err x)]) (Err x)); auto. apply core_note; simpl; auto.
              right. destruct strict; auto. destruct Hst; auto.
        -- apply shaped_more; [apply shaped_more; [auto|repeat constructor]|repeat constructor].
    + (* completion *)
      apply (@over_ok ph now l q w Cmp); auto; discriminate.
    + (* unsubscribing *)
      destruct (w_shut w || th_done (w_st w) || th_off (w_st w)) eqn:Hso.
      * unfold P. wcbn. split; auto. split; [apply core_note; simpl; auto|]. split; auto. split; [apply perm_note; simpl; auto|].
        intros Hs. rewrite Hs in Hso. cbn [orb] in Hso. apply orb_true_iff in Hso. destruct (HL Hs) as [L1 L2 L3 L4 L5 L6 L7 L8].
        split; snocs; rewrite ?gap_snoc; auto.
        -- destruct (th_deadline (w_st w)); auto. destruct L1 as [L1 L1']. split; auto. refine (one_imp _ _ L1); intros; apply mine_same; simpl; auto.
        -- intros Hx. destruct (L2 Hx) as (? & ? & ?). auto.
        -- intros. apply in_or_app; auto.
        -- intros. apply in_or_app; auto.
      * apply orb_false_iff in Hso. destruct Hso as [Hso Hoff]. apply orb_false_iff in Hso. destruct Hso as [Hs Hdn].
        apply (@over_ok ph now l q w Uns); auto.
Qed.

Lemma run_shut t (w : W) : w_shut w = true -> let w' := snd (throttle_run trailing (tell true down) t (clear w)) in
  w_tr w' = w_tr w /\ w_shut w' = true /\ w_rs w' = [].
Proof.
  intros Hs. assert (E0 : forall c (w1 : W), w_shut w1 = true -> tell true down c w1 = w1) by (intros; apply tell_shut; auto).
  unfold throttle_run. wcbn. destruct (th_deadline (w_st w)) as [dl|]; [|auto].
  destruct (t <? dl); [auto|]. destruct (dl <? t).
  - destruct (th_done (w_st w)); [|destruct (th_off (w_st w))]; wcbn; cbn [snd]; rewrite ?E0 by auto; auto.
  - destruct trailing; [destruct (th_value (w_st w)) as [a|]|]; [rewrite (E0 (Nxt a)) by auto; wcbn; rewrite Hs; auto| |];
      (destruct (th_done (w_st w)); [|destruct (th_off (w_st w))]; wcbn; cbn [snd]; rewrite ?E0 by auto; auto).
Qed.

Lemma Hrun fuel t now l1 wk l2 q (w : W) wk' r w' rs :
  P (Some t) now (l1 ++ (false, wk) :: l2) q w -> Forall (fun x => fst x = true) l1 -> owned wk = true ->
  wtick (run T down user) fuel wk t w = Some (wk', r, w', rs) ->
  Forall (@rq_ok O X) rs /\
  P (Some t) now (l1 ++ (if r then [] else [(true, wk')]) ++ l2) (q ++ vr now rs) w'.
Proof.
  intros (HC & Sh & HPm & HL) _ _. destruct (shaped_run _ _ _ Sh) as [(lst & ->) Sh'].
  cbn [wtick run throttle t_run t_torn].
  destruct (throttle_run trailing (tell true down) t (clear w)) as [done w1] eqn:Hr.
  intros Y; injection Y as <- <- <- <-.
  assert (Hsh : shape (WContinuous (Nat.max lst t) (KO Datatypes.tt))) by (unfold shape; eauto).
  destruct (w_shut w) eqn:Hs.
  { assert (Hx := run_shut t w Hs). rewrite Hr in Hx. cbn [snd] in Hx. destruct Hx as (X1 & X2 & X3). unfold P. rewrite X1, X2, X3.
    split; auto. cbn [vr flat_map]. rewrite app_nil_r. split; [auto|split; [apply Sh'; auto|split; [auto|discriminate]]]. }
  destruct (HL eq_refl) as [L1 L2 L3 L4 L5 L6 [rest L7] L8].
  unfold throttle_run in Hr. wcbn. cbn [clear w_st] in Hr.
  destruct (th_deadline (w_st w)) as [dl|] eqn:Hdl; [|destruct L1 as [L1 _]; destruct l1; discriminate].
  destruct L1 as [L1 Lp]. apply one_run in L1. destruct L1 as (-> & -> & -> & M1 & M2). cbn [app] in *.
  assert (Gt := c_given HC). cbn in Gt. assert (Tn := c_t HC). cbn in Tn.
  destruct (t <? dl) eqn:Hlt.
  { apply Nat.ltb_lt in Hlt. injection Hr as <- <-. unfold P. wcbn. split; auto. rewrite Hs. split; [auto|]. split; [apply (Sh' false); auto|].
    split; [auto|]. intros _. split; cbn [th_deadline th_value th_done th_off th_last]; rewrite ?Hdl in *; auto.
    - split; auto. constructor. split; auto. intros _. cbn [th_last]. split; auto. intros. right. lia.
    - exists rest; auto. }
  (* the window is over *)
  assert (Close : forall v (emit : option A) (w2 : W) rs2, w_rs w2 = rs2 -> Forall (@rq_ok O X) rs2 -> vr now rs2 = [] -> w_shut w2 = false ->
    core (Some t) now (w_tr w2) false -> w_st w2 = mkTh v t None (th_done (w_st w)) (th_off (w_st w)) -> w_over w2 = w_over w ->
    (forall e, In (XUp e) (w_tr w2) <-> In (XUp e) (w_tr w)) ->
    (exists rest, Permutation (values (w_tr w2) ++ olist v ++ rest) (map snd (pushes (w_tr w2)))) ->
    (if th_done (w_st w) then (true, tell true down Cmp w2) else if th_off (w_st w) then (true, tell true down Uns w2) else (true, w2)) = (done, w1) ->
    done = true /\ Forall (@rq_ok O X) (w_rs w1) /\ P (Some t) now [] (vr now (w_rs w1)) w1).
  { intros v emit w2 rs2 E1 E2 E3 E4 E5 E6 E7 E8 E9.
    assert (End : forall c, c = Cmp \/ c = Uns -> In (XUp c) (w_tr w) ->
      Forall (@rq_ok O X) (w_rs (tell true down c w2)) /\ P (Some t) now [] (vr now (w_rs (tell true down c w2))) (tell true down c w2)).
    { intros c Hc Hi. destruct (@tell_open A A E S O X true down c w2 E4) as (rs3 & -> & R1 & R2). unfold P. wcbn.
      assert (Ecl : closes down c (w_tr w2) = true) by (destruct Hc; subst c; auto). rewrite Ecl in *. rewrite E1. split; [rqs|].
      rewrite vr_app, E3, R2. cbn [app andb]. split; [|split; [split; repeat constructor|split; [|discriminate]]].
      - rewrite <- Ecl. apply core_out; auto. split; [apply (core_isopen E5); auto|]. apply E8 in Hi. destruct Hc; subst c; auto.
      - apply perm_note; [destruct Hc; subst; simpl; auto|]. destruct E9 as [r0 E9]. eauto. }
    destruct (th_done (w_st w)) eqn:Hdn; [|destruct (th_off (w_st w)) eqn:Hof].
    - intros Y; injection Y as <- <-. split; auto.
    - intros Y; injection Y as <- <-. split; auto.
    - intros Y; injection Y as <- <-. split; auto. rewrite E1. split; auto. rewrite E3. unfold P. rewrite E4. split; auto. split; [split; constructor|].
      split; [destruct E9; eauto|]. intros _. rewrite E6. split; cbn [th_deadline th_value th_done th_off th_last]; auto; try discriminate.
      + intros [|]; discriminate.
      + intros [Hi|Hi]; apply (E8 _) in Hi; apply L5; auto. }
  assert (Close0 : forall v, (exists rest, Permutation (values (w_tr w) ++ olist v ++ rest) (map snd (pushes (w_tr w)))) ->
    (if th_done (w_st w) then (true, tell true down Cmp (st (mkTh v t None (th_done (w_st w)) (th_off (w_st w))) (clear w)))
     else if th_off (w_st w) then (true, tell true down Uns (st (mkTh v t None (th_done (w_st w)) (th_off (w_st w))) (clear w)))
     else (true, st (mkTh v t None (th_done (w_st w)) (th_off (w_st w))) (clear w))) = (done, w1) ->
    Forall (rq_ok (X:=X)) (w_rs w1) /\
    P (Some t) now ((if done then [] else [(true, WContinuous (Nat.max lst t) (KO Datatypes.tt))]) ++ []) (vr now (w_rs w1)) w1).
  { intros v Hv Hx. eapply (Close v None _ []) in Hx; wcbn; auto; [|tauto]. destruct Hx as (-> & ? & ?). auto. }
  clear Close. destruct (dl <? t) eqn:Hlt2; [apply (Close0 (th_value (w_st w))); eauto|].
  assert (Et : t = dl) by (apply Nat.ltb_ge in Hlt; apply Nat.ltb_ge in Hlt2; lia).
  assert (Htd : trailing = true \/ trailing = false) by (destruct trailing; auto).
  assert (Close1 : exists rest, Permutation (values (w_tr w) ++ olist (@None A) ++ rest) (map snd (pushes (w_tr w)))).
  { exists (olist (th_value (w_st w)) ++ rest). auto. }
  destruct Htd as [Htd|Htd]; rewrite Htd in Hr; [|apply (Close0 None); auto].
  destruct (th_value (w_st w)) as [a|] eqn:Hv; [|apply (Close0 None); auto]. clear Close0 Close1.
  cbn [olist] in L7.
  assert (Hg : good (w_tr w) (XOut (Nxt a))).
  { split; [apply (core_isopen HC); auto|]. right. split; auto. split; [apply (c_tick HC)|]. rewrite <- L7. rewrite in_app_iff. simpl. auto. }
  match type of Hr with context [tell true down (Nxt a) ?w2] => destruct (@tell_open A A E S O X true down (Nxt a) w2 Hs) as (rs1 & Tl & R1 & R2) end.
  rewrite Tl in Hr. clear Tl. revert R2 Hr. wcbn. rewrite andb_true_r. cbn [app]. intros R2 Hr.
  assert (C1 := core_out _ HC Hg (or_intror eq_refl)).
  assert (Pm : exists rest, Permutation (values (w_tr w ++ [XOut (Nxt a)]) ++ rest) (map snd (pushes (w_tr w ++ [XOut (Nxt a)])))).
  { exists rest. snocs. rewrite <- app_assoc. auto. }
  destruct (closes down (Nxt a) (w_tr w)) eqn:Hcl.
  { injection Hr as <- <-. unfold P. wcbn. split; auto. rewrite R2. split; [auto|]. split; [|split; [auto|discriminate]]. split; repeat constructor. }
  assert (End : forall c (w2 : W), c = Cmp \/ c = Uns -> In (XUp c) (w_tr w) -> w_shut w2 = false -> w_tr w2 = w_tr w ++ [XOut (Nxt a)] -> w_rs w2 = rs1 ->
      Forall (@rq_ok O X) (w_rs (tell true down c w2)) /\ P (Some t) now [] (vr now (w_rs (tell true down c w2))) (tell true down c w2)).
  { intros c w2 Hc Hi E1 E2 E3. destruct (@tell_open A A E S O X true down c w2 E1) as (rs3 & -> & R3 & R4). unfold P. wcbn.
    assert (Ecl : closes down c (w_tr w2) = true) by (destruct Hc; subst c; auto). rewrite Ecl, E2, E3 in *. split; [rqs|].
    rewrite vr_app, R2, R4. cbn [app andb]. split; [|split; [split; repeat constructor|split; [|discriminate]]].
    - rewrite <- Ecl. apply core_out; auto. split; [apply (core_isopen C1); auto|]. destruct Hc; subst c; apply in_or_app; auto.
    - apply perm_note; [destruct Hc; subst; simpl; auto|auto]. }
  destruct (th_done (w_st w)) eqn:Hdn; [injection Hr as <- <-; apply End; auto|].
  destruct (th_off (w_st w)) eqn:Hof; [injection Hr as <- <-; apply End; auto|].
  injection Hr as <- <-. unfold P. wcbn. split; auto. rewrite R2. split; [auto|]. split; [apply (Sh' false); auto|]. split; auto.
  intros _. split; cbn [th_deadline th_value th_done th_off th_last]; auto; try discriminate; try (intros [|]; discriminate).
  - split; [|snocs; auto]. constructor. split; auto. intros _. cbn [th_last th_value]. snocs. auto.
  - intros Hi. destruct L5; auto; try discriminate. destruct Hi as [Hi|Hi]; apply in_app_iff in Hi; destruct Hi as [Hi|[Hi|[]]]; auto; discriminate.
Qed.

Lemma Hbegin now l q (w : W) u : P None now l q w -> Forall (fun x => fst x = true) l ->
  P (Some u) (Nat.max now u) (map (fun x => (false, snd x)) l) q (note (XTick u) w).
Proof.
  intros (HC & Sh & HPm & HL) F. unfold P. wcbn. split; [|split; [|split]].
  - apply core_begin; simpl; auto.
  - apply shaped_begin; auto.
  - apply perm_note; simpl; auto.
  - intros Hs. destruct (HL Hs) as [L1 L2 L3 L4 L5 L6 L7 L8]. split; snocs; auto; try discriminate; try lia.
    + destruct (th_deadline (w_st w)).
      * destruct L1 as [L1 L1']. split; auto. refine (one_begin _ _ L1). intros b wk [M1 M2]. split; [auto|discriminate].
      * destruct L1 as [-> ->]. auto.
    + intros. apply in_or_app; auto.
    + intros. apply in_or_app; auto.
    + rewrite !in_app_iff. simpl. intros [[?|[?|[]]]|[?|[?|[]]]]; auto; discriminate.
Qed.

Lemma Hend t now l (w : W) : P (Some t) now l [] w -> Forall (fun x => fst x = true) l -> P None now l [] (note XEnd w).
Proof.
  intros (HC & Sh & HPm & HL) F. unfold P. wcbn. split; [|split; [auto|split]].
  - apply (@core_end _ _ _ _ _ _ _ t); auto. simpl. intros Ho Hi Hd. apply (c_open HC) in Ho.
    destruct (HL Ho) as [L1 L2 L3 L4 L5 L6 L7 L8]. destruct (L2 (L5 Hi)) as (O1 & O2 & O3 & O4).
    destruct (th_deadline (w_st w)) as [dl|]; [|destruct O4; auto]. destruct L1 as [L1 (ps & x & L9 & L10)].
    apply one_end in L1; auto. destruct L1 as (wk & _ & M). destruct (M eq_refl) as [M1 M2]. exists ps, x. split; auto.
    destruct (M2 Hd O2); [congruence|lia].
  - apply perm_note; simpl; auto.
  - intros Hs. destruct (HL Hs) as [L1 L2 L3 L4 L5 L6 L7 L8]. split; snocs; auto.
    + destruct (th_deadline (w_st w)); [|auto]. destruct L1 as [L1 L1']. split; auto. refine (one_imp _ _ L1). intros. apply mine_same; simpl; auto.
    + intros. apply in_or_app; auto.
    + intros. apply in_or_app; auto.
    + rewrite !in_app_iff. simpl. intros [[?|[?|[]]]|[?|[?|[]]]]; auto; discriminate.
    + rewrite gap_snoc. lia.
Qed.

Lemma HS ph now l wk q (w : W) : P ph now l (QS wk :: q) w -> owned wk = true -> P ph now (l ++ [(false, wk)]) q w.
Proof.
  intros (HC & Sh & HPm & HL) _. split; [auto|split; [apply shaped_HS; auto|split; [auto|]]].
  intros Hs. destruct (HL Hs) as [L1 L2 L3 L4 L5 L6 L7 L8]. split; auto.
  destruct (th_deadline (w_st w)); [destruct L1; split; auto; apply one_HS; auto|]. destruct L1 as (_ & L1). discriminate.
Qed.
Lemma HC ph now l q (w : W) : P ph now l (QC _ _ :: q) w -> P ph now [] q w.
Proof.
  intros (HC & Sh & HPm & HL). split; [auto|split; [eapply shaped_HC; eauto|split; [auto|]]].
  intros Hs. destruct (HL Hs) as [L1 L2 L3 L4 L5 L6 L7 L8]. exfalso.
  destruct (th_deadline (w_st w)); [destruct L1; eapply one_HC; eauto|]. destruct L1 as (_ & L1). discriminate.
Qed.
Lemma Hinit : P None 0 [] [] (mkW (t_new T) false false false false [] []).
Proof.
  unfold P. wcbn. split; [apply core_init|]. split; [split; constructor|]. split; [exists []; constructor|].
  intros _. split; cbn; auto; try discriminate; try tauto; try lia; try (intros [|]; discriminate). exists []. constructor.
Qed.

End Throttle.

Theorem throttle_ok A E X d leading trailing (down : list (ncall A E) -> bool * list (req X))
  (user : X -> nat -> list (tev A A E) -> X * bool * list (cmd A E X)) fuel depth h m :
  let T := @throttle A E X d leading trailing in
  syss T down user fuel (start T depth) h = Fine m ->
  let tr := w_tr (m_world m) in
  always (throttled down d leading trailing) tr /\ answered down (@throttle_answers A E leading) tr /\
  exists rest, Permutation (values tr ++ rest) (map snd (pushes tr)).
Proof.
  intros T H.
  set (late := fun (x : E) (p : list (tev A A E)) => last_is p (XUp (Err x))).
  assert (Hl : forall x p, last_is p (XUp (Err x)) -> late x p) by auto.
  destruct (@lift_any _ _ _ _ _ _ T down user (P d leading trailing down true late) (@Hclear _ _ _ _ _ _ _ _ _)
    (@Hcmd _ _ _ d leading trailing down true late Hl) (@Hrun _ _ _ d leading trailing down user true late)
    (@Hbegin _ _ _ d leading trailing down true late) (@Hend _ _ _ d leading trailing down true late)
    (@HS _ _ _ d leading trailing down true late) (@HC _ _ _ d leading trailing down true late)
    (Hinit _ _ _ _ _ _) _ _ _ _ H) as (l & q & HP & F).
  destruct HP as (HC & Sh & HPm & HL). split; [apply (c_good HC)|]. split; [apply (c_ans HC)|auto].
Qed.

(** No panic, if the source is only called between ticks. *)
Section Calm.
Variables A E X : Type.
Variable d : nat.
Variables leading trailing : bool.
Variable down : list (ncall A E) -> bool * list (req X).
Variable user : X -> nat -> list (tev A A E) -> X * bool * list (cmd A E X).
Hypothesis Hal : aloof user.
Notation O := unit.
Notation S := (throttle_st A).
Notation W := (world A A E (throttle_st A) O X).
Notation K := (clo O X).
Notation T := (@throttle A E X d leading trailing).

Definition surv (l : list (bool * work K)) (q : list (qop O X)) : list (bool * work K) :=
  fold_left (fun l x => match x with QS w => l ++ [(false, w)] | QC _ _ => [] end) q l.
Lemma surv_app l q q' : surv l (q ++ q') = surv (surv l q) q'.
Proof. apply fold_left_app. Qed.
Lemma surv_map q : forall l, length (surv (map (fun x => (false, snd x)) l) q) = length (surv l q).
Proof.
  induction q as [|[w|] q IH]; intros l; cbn [surv fold_left] in *.
  - apply map_length.
  - specialize (IH (l ++ [(false, w)])). rewrite map_app in IH. exact IH.
  - reflexivity.
Qed.

Definition Q (ph : phase) (now : nat) l q (w : W) : Prop :=
  w_panic w = false /\ shaped (shape (X:=X)) l q /\
  match ph with
  | Running _ => length l <= 1 /\ Forall (fun x => match x with QS _ => False | QC _ _ => True end) q /\
                 (th_deadline (w_st w) = None -> l = [])
  | _ => length (surv l q) <= 1 /\ (th_deadline (w_st w) = None -> surv l q = [])
  end.
Definition calm (c : cmd A E X) : Prop := match c with CUp _ => False | _ => True end.
Lemma Hcalm x t tr : Forall calm (snd (user x t tr)).
Proof. apply Forall_forall. intros c Hc. destruct c; simpl; auto. eapply Hal; eauto. Qed.

Lemma tells c (w : W) now : exists rs, w_rs (tell true down c w) = w_rs w ++ rs /\ Forall (@rq_ok O X) rs /\
  (vr now rs = [] \/ vr now rs = [QC O X]) /\ w_st (tell true down c w) = w_st w /\ w_panic (tell true down c w) = w_panic w.
Proof.
  destruct (w_shut w) eqn:Hs.
  - rewrite tell_shut by auto. exists []. rewrite app_nil_r. auto.
  - destruct (@tell_open A A E S O X true down c w Hs) as (rs & -> & R1 & R2). wcbn. exists rs. split; auto. split; auto. split; auto.
    rewrite R2. destruct (_ && _); auto.
Qed.

Lemma calm_clear ph now l q (w : W) : Q ph now l q w <-> Q ph now l q (clear w).
Proof. reflexivity. Qed.

(** Everything is cancelled. *)
Lemma calm_off now l q q' (w : W) : w_panic w = false -> shaped (shape (X:=X)) l q -> q' = [] \/ q' = [QC O X] ->
  Q Between now l (q ++ [QC O X] ++ q') w.
Proof.
  intros H1 H2 H3. split; auto. split.
  - apply shaped_more; auto. constructor; auto. destruct H3; subst; repeat constructor.
  - rewrite !surv_app. cbn. destruct H3; subst; cbn; auto.
Qed.

Lemma calm_cmd ph now l q (w : W) c : is_up c -> ph = Between \/ calm c -> Forall (@rq_ok O X) (w_rs w) ->
  Q ph now l (q ++ vr now (w_rs w)) w ->
  Forall (@rq_ok O X) (w_rs (do_cmd T down w c)) /\
  Q ph now l (q ++ vr now (w_rs (do_cmd T down w c))) (do_cmd T down w c).
Proof.
  intros Hc Hp F HQ. pose proof HQ as (Q1 & Q2 & Q3). destruct c as [|c|r]; [| |destruct Hc].
  - cbn [do_cmd]. destruct (w_born w); split; auto.
  - destruct Hp as [->|[]]. cbn [do_cmd]. unfold up. destruct (w_born w); [|split; auto]. cbn [negb].
    assert (Off : forall c s, let w' := tell true down c (ask (QCancel 0) (st s (set_over (note (XUp c) w)))) in
      Forall (@rq_ok O X) (w_rs w') /\ Q Between now l (q ++ vr now (w_rs w')) w').
    { intros c0 s w'. destruct (tells c0 (ask (QCancel 0) (st s (set_over (note (XUp c0) w)))) now) as (rs & R1 & R2 & R3 & R4 & R5).
      fold w' in R1, R4, R5. revert R1 R4 R5. wcbn. intros R1 R4 R5. rewrite R1. split; [rqs|]. rewrite !vr_app.
      rewrite <- app_assoc, app_assoc. apply calm_off; auto. congruence. }
    assert (Keep : forall s c (b : bool), (th_deadline s = None -> th_deadline (w_st w) = None) ->
      let w' := st s (if b then set_over (note (XUp c) w) else note (XUp c) w) in
      Forall (@rq_ok O X) (w_rs w') /\ Q Between now l (q ++ vr now (w_rs w')) w').
    { intros s c0 b Hk w'. assert (E1 : w_rs w' = w_rs w) by (unfold w'; destruct b; auto). rewrite E1. split; auto.
      split; [unfold w'; destruct b; auto|]. split; [auto|]. destruct Q3 as [Q3 Q4]. split; [auto|]. intros Hx. apply Q4, Hk. unfold w' in Hx. destruct b; auto. }
    destruct c as [a|x| |]; try (destruct (w_over w) eqn:Hov; [split; [exact F|exact HQ]; fail|]); cbn [throttle t_up t_torn throttle_up]; wcbn.
    + destruct (th_deadline (w_st w)) as [dl|] eqn:Hdl.
      * destruct (th_last (w_st w) <? dl); [destruct trailing|].
        -- apply (Keep _ (Nxt a) false). discriminate.
        -- split; auto.
        -- apply (Keep _ (Nxt a) false). discriminate.
      * destruct Q3 as [_ Q3]. specialize (Q3 eq_refl).
        match goal with |- context [ask _ ?y] => set (w1 := y) end.
        assert (H1 : exists rs, w_rs w1 = w_rs w ++ rs /\ Forall (@rq_ok O X) rs /\ (vr now rs = [] \/ vr now rs = [QC O X]) /\ w_panic w1 = w_panic w /\ th_deadline (w_st w1) <> None).
        { unfold w1. destruct leading; [|destruct trailing; exists []; rewrite app_nil_r; wcbn; repeat split; auto; discriminate].
          match goal with |- context [tell true down (Nxt a) ?y] => destruct (tells (Nxt a) y now) as (rs & R1 & R2 & R3 & R4 & R5) end.
          exists rs. rewrite R1, R4, R5. repeat split; auto. discriminate. }
        destruct H1 as (rs & R1 & R2 & R3 & R4 & R5). clearbody w1. unfold Q. wcbn. rewrite R1. split; [rqs|].
        rewrite !vr_app. change (vr now [_]) with [QS (O:=O) (X:=X) (WContinuous 0 (KO Datatypes.tt))]. rewrite !app_assoc.
        split; [congruence|]. split.
        -- apply shaped_more; [apply shaped_more; [auto|]|apply qs_ok]. destruct R3 as [->| ->]; repeat constructor.
        -- rewrite surv_app, (surv_app l (_ ++ _)), Q3. split; [destruct R3 as [->| ->]; cbn; auto|]. intros. congruence.
    + apply Off.
    + destruct (th_idle trailing (w_st w)); [apply Off|]. apply (Keep _ Cmp true). auto.
    + destruct (w_shut w || th_done (w_st w) || th_off (w_st w)); [split; auto|].
      destruct (th_idle trailing (w_st w)); [apply Off|]. apply (Keep _ Uns true). auto.
Qed.

Lemma calm_run fuel t now l1 wk l2 q (w : W) wk' r w' rs :
  Q (Running t) now (l1 ++ (false, wk) :: l2) q w -> Forall (fun x => fst x = true) l1 -> owned wk = true ->
  wtick (run T down user) fuel wk t w = Some (wk', r, w', rs) ->
  Forall (@rq_ok O X) rs /\
  Q (Running t) now (l1 ++ (if r then [] else [(true, wk')]) ++ l2) (q ++ vr now rs) w'.
Proof.
  intros (Q1 & Q2 & Q3 & Q4 & Q5) _ _. destruct (shaped_run _ _ _ Q2) as [(lst & ->) Sh'].
  assert (E1 : l1 = [] /\ l2 = []).
  { rewrite app_length in Q3. cbn [length] in Q3. destruct l1; destruct l2; auto; cbn [length] in Q3; lia. }
  destruct E1 as [-> ->]. cbn [app] in *.
  cbn [wtick run throttle t_run t_torn].
  assert (Hsh : shape (X:=X) (WContinuous (Nat.max lst t) (KO Datatypes.tt))) by (unfold shape; eauto).
  assert (Fin : forall (done : bool) (w1 : W), (exists rs, w_rs w1 = rs /\ Forall (@rq_ok O X) rs /\ Forall (fun x => match x with QS _ => False | QC _ _ => True end) (vr now rs)) ->
    w_panic w1 = false -> done = true \/ th_deadline (w_st w1) <> None ->
    Forall (@rq_ok O X) (w_rs w1) /\ Q (Running t) now ((if done then [] else [(true, WContinuous (Nat.max lst t) (KO Datatypes.tt))]) ++ []) (q ++ vr now (w_rs w1)) w1).
  { intros done w1 (rs1 & -> & R1 & R2) Hp Hdn. split; auto. split; auto. split; [|split; [|split]].
    - apply shaped_more; [apply (Sh' done); auto|]. eapply Forall_impl; [|exact R2]. intros []; tauto.
    - destruct done; cbn; lia.
    - apply Forall_app; auto.
    - intros Hd0. destruct Hdn as [->|Hdn]; [auto|congruence]. }
  assert (Tell : forall c (w1 : W), (exists rs, w_rs w1 = rs /\ Forall (@rq_ok O X) rs /\ Forall (fun x => match x with QS _ => False | QC _ _ => True end) (vr now rs)) -> w_panic w1 = false ->
    (exists rs, w_rs (tell true down c w1) = rs /\ Forall (@rq_ok O X) rs /\ Forall (fun x => match x with QS _ => False | QC _ _ => True end) (vr now rs)) /\
    w_panic (tell true down c w1) = false /\ w_st (tell true down c w1) = w_st w1).
  { intros c w1 (rs1 & R1 & R2 & R3) Hp. destruct (tells c w1 now) as (rs2 & -> & T2 & T3 & T4 & T5). rewrite T5, T4. split; auto.
    exists (rs1 ++ rs2). rewrite R1. split; auto. split; [rqs|]. rewrite vr_app. apply Forall_app; split; auto. destruct T3 as [->| ->]; repeat constructor. }
  destruct (throttle_run trailing (tell true down) t (clear w)) as [done w1] eqn:Hr.
  intros Y; injection Y as <- <- <- <-. revert Hr. unfold throttle_run. wcbn.
  assert (Z0 : forall s, (exists rs, w_rs (st s (clear w)) = rs /\ Forall (@rq_ok O X) rs /\ Forall (fun x => match x with QS _ => False | QC _ _ => True end) (vr now rs)) /\ w_panic (st s (clear w)) = false).
  { intros. wcbn. split; auto. exists []. repeat constructor. }
  destruct (th_deadline (w_st w)) as [dl|] eqn:Hdl; [|discriminate (Q5 eq_refl)].
  destruct (t <? dl). { intros Y; injection Y as <- <-. apply (Fin false); try apply Z0. right. discriminate. }
  assert (Over : forall s (dn off go : bool), go = false \/ th_deadline s <> None -> forall w2, (exists rs, w_rs w2 = rs /\ Forall (@rq_ok O X) rs /\ Forall (fun x => match x with QS _ => False | QC _ _ => True end) (vr now rs)) ->
    w_panic w2 = false -> w_st w2 = s ->
    (if dn then (true, tell true down Cmp w2) else if off then (true, tell true down Uns w2) else (negb go, w2)) = (done, w1) ->
    Forall (@rq_ok O X) (w_rs w1) /\ Q (Running t) now ((if done then [] else [(true, WContinuous (Nat.max lst t) (KO Datatypes.tt))]) ++ []) (q ++ vr now (w_rs w1)) w1).
  { intros s dn off go Hg w2 Z1 Z2 Z3. destruct dn; [|destruct off]; intros Y; injection Y as <- <-.
    - destruct (Tell Cmp w2 Z1 Z2) as (T1 & T2 & T3). apply (Fin true); auto.
    - destruct (Tell Uns w2 Z1 Z2) as (T1 & T2 & T3). apply (Fin true); auto.
    - apply (Fin (negb go)); auto. destruct Hg as [->|Hg]; auto. rewrite Z3. auto. }
  destruct (dl <? t).
  { intros Hr. eapply Over in Hr; eauto; try apply Z0. }
  destruct trailing; [destruct (th_value (w_st w)) as [a|]|].
  2, 3: intros Hr; eapply Over in Hr; eauto; try apply Z0.
  match goal with |- context [tell true down (Nxt a) (st ?s ?y)] => destruct (Tell (Nxt a) (st s y)) as (T1 & T2 & T3); [apply Z0|apply Z0|]; set (w2 := tell true down (Nxt a) (st s y)) in * end.
  destruct (w_shut w2). { intros Y; injection Y as <- <-. apply (Fin true); auto. }
  intros Hr. eapply Over in Hr; eauto. right. cbn; discriminate.
Qed.

Lemma calm_begin now l q (w : W) u : Q Between now l q w -> Forall (fun x => fst x = true) l ->
  Q (Begun u) (Nat.max now u) (map (fun x => (false, snd x)) l) q (note (XTick u) w).
Proof.
  intros (Q1 & Q2 & Q3 & Q4) _. split; auto. split; [apply shaped_begin; auto|]. rewrite surv_map. split; auto. wcbn. intros Hd.
  apply length_zero_iff_nil. rewrite surv_map, Q4; auto.
Qed.
Lemma calm_go t now l (w : W) : Q (Begun t) now l [] w -> Q (Running t) now l [] w.
Proof. intros (Q1 & Q2 & Q3 & Q4). split; auto. Qed.
Lemma calm_end t now l (w : W) : Q (Running t) now l [] w -> Forall (fun x => fst x = true) l -> Q Between now l [] (note XEnd w).
Proof. intros (Q1 & Q2 & Q3 & Q4 & Q5) _. split; auto. Qed.
Lemma calm_HS ph now l wk q (w : W) : Q ph now l (QS wk :: q) w -> owned wk = true -> Q ph now (l ++ [(false, wk)]) q w.
Proof.
  intros (Q1 & Q2 & Q3) _. split; auto. split; [apply shaped_HS; auto|]. destruct ph; auto. destruct Q3 as (_ & Q3 & _). inversion Q3. tauto.
Qed.
Lemma calm_HC ph now l q (w : W) : Q ph now l (QC _ _ :: q) w -> Q ph now [] q w.
Proof.
  intros (Q1 & Q2 & Q3). split; auto. split; [eapply shaped_HC; eauto|]. destruct ph; auto. destruct Q3 as (_ & Q3 & _). inversion Q3. auto.
Qed.
Lemma calm_init : Q Between 0 [] [] (mkW (t_new T) false false false false [] []).
Proof. split; auto. split; [split; constructor|]. cbn. auto. Qed.

Theorem throttle_calm fuel depth h m : syss T down user fuel (start T depth) h = Fine m -> w_panic (m_world m) = false.
Proof.
  intros H.
  destruct (@lift _ _ _ _ _ _ T down user Q calm_clear calm Hcalm calm_cmd calm_run calm_begin calm_go calm_end calm_HS calm_HC calm_init _ _ _ _ H) as (l & q & HP & F).
  apply HP.
Qed.
End Calm.
