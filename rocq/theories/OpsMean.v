(** Each operator's list-level run is its specification. *)
From Verif Require Import Base SubscrModel SubscrProofs OpsModel OpsSpec OpsProofs OpsSem.
Set Implicit Arguments.

Lemma mean_simple I E O F (Q : Type) (q0 : Q)
  (n : Q -> bool -> I -> Q * list (act O F))
  (e : Q -> bool -> E -> Q * list (act O F))
  (c : Q -> bool -> Q * list (act O F)) (t : trace I E) :
  mean (simple_trans q0 n e c) t = crun (simple_trans q0 n e c) q0 (ncs t).
Proof. unfold mean, tapp; simpl. symmetry; apply surjective_pairing. Qed.

Lemma tapp_nil O F (x : trace O F) : tapp ([], FOpen) x = x.
Proof. unfold tapp; simpl. symmetry; apply surjective_pairing. Qed.

Lemma crun_nxt I E O F (T : trans I E O F) q a (r : list (ncall I E)) :
  crun T q (Nxt a :: r) = tapp (acut (snd (on_next T q false a))) (crun T (fst (on_next T q false a)) r).
Proof. reflexivity. Qed.

Lemma ncs_nil A E (f : fin E) : ncs (([], f) : trace A E) = fin_calls f.
Proof. reflexivity. Qed.
Lemma ncs_cons A E a l (f : fin E) : ncs ((a :: l, f) : trace A E) = Nxt a :: ncs (l, f).
Proof. reflexivity. Qed.

Ltac mstart := rewrite mean_simple; match goal with |- context [ncs ?t] => destruct t as [l f] end; cbn [fst snd].

Lemma mean_map A B E (f : A -> B) t : mean (@t_map A B E f) t = (map f (fst t), snd t).
Proof.
  unfold t_map. rewrite mean_simple. destruct t as [l g]; cbn [fst snd].
  induction l as [|a l IH].
  - destruct g; reflexivity.
  - rewrite ncs_cons, crun_nxt; cbn [fst snd on_next simple_trans].
    rewrite IH; reflexivity.
Qed.

Lemma mean_identity A E t : mean (@t_identity A E) t = t.
Proof.
  unfold t_identity. rewrite mean_simple. destruct t as [l g].
  induction l as [|a l IH].
  - destruct g; reflexivity.
  - rewrite ncs_cons, crun_nxt; cbn [fst snd on_next simple_trans]. rewrite IH; reflexivity.
Qed.

Lemma mean_error_boundary A t : mean (@t_error_boundary A) t = t.
Proof.
  unfold t_error_boundary. rewrite mean_simple. destruct t as [l g].
  induction l as [|a l IH].
  - destruct g as [|[]| |]; reflexivity.
  - rewrite ncs_cons, crun_nxt; cbn [fst snd on_next simple_trans]. rewrite IH; reflexivity.
Qed.

Lemma mean_tap_next A E f t : mean (@t_tap_next A E f) t = t.
Proof.
  unfold t_tap_next. rewrite mean_simple. destruct t as [l g].
  induction l as [|a l IH].
  - destruct g; reflexivity.
  - rewrite ncs_cons, crun_nxt; cbn [fst snd on_next simple_trans]. rewrite IH; reflexivity.
Qed.

Lemma mean_tap A E fn fe fc t : mean (@t_tap A E fn fe fc) t = t.
Proof.
  unfold t_tap. rewrite mean_simple. destruct t as [l g].
  induction l as [|a l IH].
  - destruct g; reflexivity.
  - rewrite ncs_cons, crun_nxt; cbn [fst snd on_next simple_trans]. rewrite IH; reflexivity.
Qed.

Lemma seq_shift_map n m : seq (S n) m = map S (seq n m).
Proof. symmetry; apply seq_shift. Qed.

Lemma mean_filter_aux A E p (l : list A) (g : fin E) i :
  crun (t_filter p) i (ncs (l, g)) =
  (map fst (filter (fun x => p (fst x) (snd x)) (combine l (seq i (length l)))), g).
Proof.
  revert i; induction l as [|a l IH]; intros i.
  - destruct g; reflexivity.
  - rewrite ncs_cons, crun_nxt; cbn [fst snd on_next simple_trans t_filter].
    fold (@t_filter A E p). rewrite IH, Nat.add_1_r. cbn [length seq combine filter map fst snd].
    destruct (p a i); reflexivity.
Qed.
Lemma mean_filter A E p t : mean (@t_filter A E p) t =
  (map fst (filter (fun x => p (fst x) (snd x)) (enumerated (fst t))), snd t).
Proof. unfold t_filter. rewrite mean_simple. destruct t as [l g]. apply mean_filter_aux. Qed.


Lemma mean_skip_aux A E k n (l : list A) (g : fin E) :
  crun (@t_skip A E k) n (ncs (l, g)) = (skipn n l, g).
Proof.
  revert n; induction l as [|a l IH]; intros n.
  - rewrite skipn_nil. destruct g; reflexivity.
  - rewrite ncs_cons, crun_nxt. cbn [on_next simple_trans t_skip].
    destruct n as [|n]; cbn [Nat.eqb fst snd]; fold (@t_skip A E k).
    + rewrite (IH 0); reflexivity.
    + rewrite (IH (S n - 1)). change (acut []) with (([], FOpen) : trace A E).
      rewrite tapp_nil. simpl. rewrite Nat.sub_0_r; reflexivity.
Qed.
Lemma mean_skip A E n t : mean (@t_skip A E n) t = (skipn n (fst t), snd t).
Proof. unfold t_skip. rewrite mean_simple. destruct t as [l g]. apply mean_skip_aux. Qed.

Lemma mean_take_aux A E k n (l : list A) (g : fin E) : 0 < n ->
  crun (@t_take A E k) (n, false) (ncs (l, g)) = if n <=? length l then (firstn n l, FDone) else (l, g).
Proof.
  revert n; induction l as [|a l IH]; intros n Hn.
  - destruct n; [lia|]. destruct g; reflexivity.
  - rewrite ncs_cons, crun_nxt. cbn [on_next t_take].
    destruct n as [|n]; [lia|].
    replace (0 <? S n) with true by (symmetry; apply Nat.ltb_lt; lia).
    replace (S n - 1) with n by lia.
    cbn [length Nat.leb firstn].
    destruct n as [|n]; cbn [Nat.eqb negb andb fst snd].
    + reflexivity.
    + fold (@t_take A E k). rewrite (IH (S n)) by lia.
      unfold acut; cbn [flat_map strip cut app].
      destruct (S n <=? length l); reflexivity.
Qed.
Lemma mean_take A E n t : mean (@t_take A E n) t =
  if n <=? length (fst t) then (firstn n (fst t), FDone) else t.
Proof.
  unfold mean. destruct t as [l g]. destruct n as [|n].
  - reflexivity.
  - cbn [o_ctor t_take Nat.eqb o_init]. fold (@t_take A E (S n)).
    change (acut []) with (([], FOpen) : trace A E). rewrite tapp_nil.
    apply mean_take_aux; lia.
Qed.

Lemma mean_first A E t : mean (@t_first A E) t = spec_first t.
Proof.
  unfold t_first. rewrite mean_simple. destruct t as [[|a l] g]; [destruct g; reflexivity|reflexivity].
Qed.

Lemma mean_element_at_aux A E i d n (l : list A) (g : fin E) : n <= i ->
  crun (@t_element_at A E i d) (n, false) (ncs (l, g)) =
  match nth_error l (i - n), g, d with
  | Some a, _, _ => ([a], FDone)
  | None, FDone, Some d => ([d], FDone)
  | None, FDone, None => ([], FErr (IndexOutOfRange i (n + length l)))
  | None, f, _ => ([], fin_map ElementAtUpstream f)
  end.
Proof.
  revert n; induction l as [|a l IH]; intros n Hn.
  - replace (nth_error (@nil A) (i - n)) with (@None A) by (destruct (i - n); reflexivity).
    rewrite Nat.add_0_r. destruct g, d; reflexivity.
  - rewrite ncs_cons, crun_nxt. cbn [on_next t_element_at orb].
    destruct (Nat.eqb_spec n i) as [->|Hne]; cbn [fst snd].
    + rewrite Nat.sub_diag; reflexivity.
    + fold (@t_element_at A E i d). change (acut []) with (([], FOpen) : trace A (element_at_error E)).
      rewrite tapp_nil, IH by lia. replace (i - n) with (S (i - (n + 1))) by lia.
      cbn [nth_error length]. replace (n + 1 + length l) with (n + S (length l)) by lia. reflexivity.
Qed.
Lemma mean_element_at A E i d t : mean (@t_element_at A E i d) t = spec_element_at i d t.
Proof.
  unfold mean. change (acut (o_ctor (@t_element_at A E i d))) with (([], FOpen) : trace A (element_at_error E)).
  rewrite tapp_nil. destruct t as [l g]. unfold spec_element_at; cbn [fst snd].
  etransitivity; [apply mean_element_at_aux; lia|]. rewrite Nat.sub_0_r; destruct (nth_error l i), g; reflexivity.
Qed.

Lemma mean_find_aux A E p (l : list A) (g : fin E) n :
  crun (@t_find A E p) (false, n) (ncs (l, g)) =
  match find p l with
  | Some b => ([b], FDone)
  | None => ([], match g with
                 | FDone => FErr (if n then FindNoMatch else match l with [] => FindNoNext | _ => FindNoMatch end)
                 | _ => fin_map FindUpstream g
                 end)
  end.
Proof.
  revert n; induction l as [|a l IH]; intros n.
  - destruct g, n; reflexivity.
  - rewrite ncs_cons, crun_nxt. cbn [on_next simple_trans t_find negb andb find].
    destruct (p a); cbn [fst snd]; [reflexivity|].
    fold (@t_find A E p). change (acut []) with (([], FOpen) : trace A (find_error E)).
    rewrite tapp_nil, IH. destruct (find p l), g, n; reflexivity.
Qed.
Lemma mean_find A E p t : mean (@t_find A E p) t = find_result (fst t) (snd t) (find p (fst t)).
Proof.
  unfold t_find. rewrite mean_simple. destruct t as [l g]. apply mean_find_aux.
Qed.

Lemma mean_find_index_aux A E p (l : list A) (g : fin E) n :
  crun (@t_find_index A E p) (false, n) (ncs (l, g)) =
  match index_of p l with
  | Some b => ([n + b], FDone)
  | None => ([], match g with
                 | FDone => FErr (if n =? 0 then match l with [] => FindNoNext | _ => FindNoMatch end else FindNoMatch)
                 | _ => fin_map FindUpstream g
                 end)
  end.
Proof.
  revert n; induction l as [|a l IH]; intros n.
  - destruct g; cbn; try reflexivity. destruct (n =? 0); reflexivity.
  - rewrite ncs_cons, crun_nxt. cbn [on_next simple_trans t_find_index negb andb index_of].
    destruct (p a); cbn [fst snd]; [rewrite Nat.add_0_r; reflexivity|].
    fold (@t_find_index A E p). change (acut []) with (([], FOpen) : trace nat (find_error E)).
    rewrite tapp_nil, IH. destruct (index_of p l) as [b|]; cbn [option_map].
    + replace (n + 1 + b) with (n + S b) by lia. reflexivity.
    + do 2 f_equal. replace (n + 1 =? 0) with false by (symmetry; apply Nat.eqb_neq; lia).
      destruct g, (n =? 0); reflexivity.
Qed.
Lemma mean_find_index A E p t : mean (@t_find_index A E p) t = find_result (fst t) (snd t) (index_of p (fst t)).
Proof.
  unfold t_find_index. rewrite mean_simple. destruct t as [l g]. apply mean_find_index_aux.
Qed.

Lemma mean_is_empty A E t : mean (@t_is_empty A E) t =
  match fst t with [] => at_end true (snd t) | _ => ([false], FDone) end.
Proof.
  unfold t_is_empty. rewrite mean_simple. destruct t as [[|a l] g]; [destruct g; reflexivity|reflexivity].
Qed.

Lemma mean_scan_aux A B E f s0 (l : list A) (g : fin E) (s : B) :
  crun (@t_scan A B E f s0) s (ncs (l, g)) =
  (map (fun k => fold_left f (firstn k l) s) (seq 1 (length l)), g).
Proof.
  revert s; induction l as [|a l IH]; intros s.
  - destruct g; reflexivity.
  - rewrite ncs_cons, crun_nxt. cbn [on_next simple_trans t_scan fst snd]. fold (@t_scan A B E f s0).
    rewrite IH. cbn [length seq map]. f_equal.
    change (acut [Do (Nxt (f s a))]) with (([f s a], FOpen) : trace B E).
    cbn [fst snd app tapp]. f_equal. rewrite (seq_shift_map 1), map_map. reflexivity.
Qed.
Lemma mean_scan A B E f s t : mean (@t_scan A B E f s) t =
  (map (fun k => fold_left f (firstn k (fst t)) s) (seq 1 (length (fst t))), snd t).
Proof. unfold t_scan. rewrite mean_simple. destruct t as [l g]. apply mean_scan_aux. Qed.

Lemma mean_reduce_aux A B E f s0 (l : list A) (g : fin E) (s : B) :
  crun (@t_reduce A B E f s0) s (ncs (l, g)) = at_end (fold_left f l s) g.
Proof.
  revert s; induction l as [|a l IH]; intros s.
  - destruct g; reflexivity.
  - rewrite ncs_cons, crun_nxt. cbn [on_next simple_trans t_reduce fst snd]. fold (@t_reduce A B E f s0).
    rewrite IH. change (acut []) with (([], FOpen) : trace B E). apply tapp_nil.
Qed.
Lemma mean_reduce A B E f s t : mean (@t_reduce A B E f s) t = at_end (fold_left f (fst t) s) (snd t).
Proof. unfold t_reduce. rewrite mean_simple. destruct t as [l g]. apply mean_reduce_aux. Qed.

Lemma mean_count_aux A E (l : list A) (g : fin E) c :
  crun (@t_count A E) c (ncs (l, g)) = at_end (c + length l) g.
Proof.
  revert c; induction l as [|a l IH]; intros c.
  - rewrite Nat.add_0_r. destruct g; reflexivity.
  - rewrite ncs_cons, crun_nxt. cbn [on_next simple_trans t_count fst snd]. fold (@t_count A E).
    rewrite IH. change (acut []) with (([], FOpen) : trace nat E). rewrite tapp_nil. f_equal. simpl; lia.
Qed.
Lemma mean_count A E t : mean (@t_count A E) t = at_end (length (fst t)) (snd t).
Proof. unfold t_count. rewrite mean_simple. destruct t as [l g]. apply mean_count_aux. Qed.

Lemma mean_enumerate_aux A E (l : list A) (g : fin E) i :
  crun (@t_enumerate A E) i (ncs (l, g)) = (combine l (seq i (length l)), g).
Proof.
  revert i; induction l as [|a l IH]; intros i.
  - destruct g; reflexivity.
  - rewrite ncs_cons, crun_nxt. cbn [on_next simple_trans t_enumerate fst snd]. fold (@t_enumerate A E).
    rewrite IH, Nat.add_1_r. reflexivity.
Qed.
Lemma mean_enumerate A E t : mean (@t_enumerate A E) t = (enumerated (fst t), snd t).
Proof. unfold t_enumerate. rewrite mean_simple. destruct t as [l g]. apply mean_enumerate_aux. Qed.

Lemma mean_pairwise_aux A E (l : list A) (g : fin E) x :
  crun (@t_pairwise A E) (Some x) (ncs (l, g)) = (combine (x :: l) l, g).
Proof.
  revert x; induction l as [|a l IH]; intros x.
  - destruct g; reflexivity.
  - rewrite ncs_cons, crun_nxt. cbn [on_next simple_trans t_pairwise fst snd]. fold (@t_pairwise A E).
    rewrite IH. reflexivity.
Qed.
Lemma mean_pairwise A E t : mean (@t_pairwise A E) t = (combine (fst t) (tl (fst t)), snd t).
Proof.
  unfold t_pairwise. rewrite mean_simple. destruct t as [[|a l] g]; [destruct g; reflexivity|].
  rewrite ncs_cons, crun_nxt. cbn [on_next simple_trans fst snd].
  change (acut []) with (([], FOpen) : trace (A * A) E). rewrite tapp_nil. apply mean_pairwise_aux.
Qed.

(** buffer_count *)
Definition buf_of {A} (l : list A) : option (list A) := match l with [] => None | _ => Some l end.

Lemma mean_buffer_aux A E k (l : list A) (g : fin E) (b : list A) : length b <= k ->
  crun (@t_buffer_count A E k) (buf_of b) (ncs (l, g)) =
  (full_chunks (S k) (b ++ l) ++
   match g, chunk_rest (S k) (b ++ l) with FDone, a :: r => [a :: r] | _, _ => [] end, g).
Proof.
  revert b; induction l as [|a l IH]; intros b Hb.
  - rewrite app_nil_r. unfold full_chunks, chunk_rest.
    rewrite (Nat.div_small (length b)) by lia. cbn [seq map app Nat.mul skipn].
    destruct b, g; reflexivity.
  - rewrite ncs_cons, crun_nxt. cbn [on_next simple_trans t_buffer_count].
    assert (Hb' : match buf_of b with Some l => l ++ [a] | None => [a] end = b ++ [a])
      by (destruct b; reflexivity).
    rewrite Hb'. rewrite app_length; cbn [length].
    destruct (Nat.eqb_spec (length b + 1) (S k)) as [He|Hne]; cbn [fst snd eject];
      fold (@t_buffer_count A E k).
    + pose proof (IH [] ltac:(simpl; lia)) as IH0. cbn [buf_of app] in IH0. rewrite IH0.
      change (acut [Do (Nxt (b ++ [a]))]) with (([b ++ [a]], FOpen) : trace (list A) E).
      rewrite tapp_open; cbn [fst snd].
      replace (b ++ a :: l) with ((b ++ [a]) ++ l) by (rewrite <- app_assoc; reflexivity).
      assert (Hlen : length (b ++ [a]) = S k) by (rewrite app_length; simpl; lia).
      assert (Hdiv : length ((b ++ [a]) ++ l) / S k = S (length l / S k)).
      { rewrite app_length, Hlen. replace (S k + length l) with (length l + 1 * S k) by lia.
        rewrite Nat.div_add by lia. lia. }
      assert (Hsk : forall m, skipn (S k + m) ((b ++ [a]) ++ l) = skipn m l).
      { intros m. rewrite skipn_app, Hlen. replace (S k + m - S k) with m by lia.
        rewrite skipn_all2 by lia. reflexivity. }
      f_equal. unfold full_chunks, chunk_rest. rewrite Hdiv.
      cbn [seq map]. cbn [Nat.mul]. rewrite (Hsk (length l / S k * S k)).
      rewrite <- app_comm_cons. cbn [app]. f_equal.
      * rewrite skipn_O, firstn_app, Hlen, Nat.sub_diag, firstn_O, app_nil_r, firstn_all2 by lia. reflexivity.
      * f_equal. rewrite (seq_shift_map 0), map_map. apply map_ext. intros j.
        change (S j * S k) with (S k + j * S k). rewrite Hsk. reflexivity.
    + change (acut []) with (([], FOpen) : trace (list A) E). rewrite tapp_nil.
      replace (Some (b ++ [a])) with (buf_of (b ++ [a])) by (destruct b; reflexivity).
      rewrite IH by (rewrite app_length; simpl; lia).
      rewrite <- app_assoc; reflexivity.
Qed.
Lemma mean_buffer_count A E k t : mean (@t_buffer_count A E k) t =
  (full_chunks (S k) (fst t) ++
   match snd t, chunk_rest (S k) (fst t) with FDone, a :: r => [a :: r] | _, _ => [] end, snd t).
Proof.
  unfold t_buffer_count. rewrite mean_simple. destruct t as [l g].
  apply (@mean_buffer_aux A E k l g []). simpl; lia.
Qed.

Lemma mean_end_with_aux A E a0 a (l : list A) (g : fin E) :
  crun (@t_end_with A E a0) (Some a) (ncs (l, g)) = (l ++ match g with FDone => [a] | _ => [] end, g).
Proof.
  induction l as [|x l IH].
  - destruct g; reflexivity.
  - rewrite ncs_cons, crun_nxt. cbn [on_next simple_trans t_end_with fst snd]. fold (@t_end_with A E a0).
    rewrite IH. reflexivity.
Qed.
Lemma mean_end_with A E a t : mean (@t_end_with A E a) t =
  (fst t ++ match snd t with FDone => [a] | _ => [] end, snd t).
Proof. unfold t_end_with. rewrite mean_simple. destruct t as [l g]. apply mean_end_with_aux. Qed.

Lemma mean_materialize A E t : mean (@t_materialize A E) t =
  (map NNext (fst t) ++ match snd t with FErr e => [NError e] | FDone => [NComplete] | _ => [] end,
   match snd t with FErr _ | FDone => FDone | FOpen => FOpen | FUnsub => FUnsub end).
Proof.
  unfold t_materialize. rewrite mean_simple. destruct t as [l g]; cbn [fst snd].
  induction l as [|x l IH].
  - destruct g; reflexivity.
  - rewrite ncs_cons, crun_nxt. cbn [on_next simple_trans fst snd].
    etransitivity; [apply f_equal, IH|]. reflexivity.
Qed.

Lemma mean_dematerialize A E t : mean (@t_dematerialize A E) t = spec_demat (fst t) (absurd_fin (snd t)).
Proof.
  unfold t_dematerialize. rewrite mean_simple. destruct t as [l g]; cbn [fst snd].
  induction l as [|[x|e|] l IH]; try reflexivity.
  - destruct g as [|[]| |]; reflexivity.
  - rewrite ncs_cons, crun_nxt. cbn [on_next simple_trans fst snd].
    etransitivity; [apply f_equal, IH|]. reflexivity.
Qed.

Lemma mean_lift_option A E t : mean (@t_lift_option A E) t = (somes (fst t), snd t).
Proof.
  unfold t_lift_option. rewrite mean_simple. destruct t as [l g]; cbn [fst snd].
  induction l as [|[x|] l IH].
  - destruct g; reflexivity.
  - rewrite ncs_cons, crun_nxt. cbn [on_next simple_trans fst snd].
    etransitivity; [apply f_equal, IH|]. reflexivity.
  - rewrite ncs_cons, crun_nxt. cbn [on_next simple_trans fst snd].
    etransitivity; [apply f_equal, IH|]. reflexivity.
Qed.

Lemma mean_lift_result A E t : mean (@t_lift_result A E) t = spec_lift_result (fst t) (absurd_fin (snd t)).
Proof.
  unfold t_lift_result. rewrite mean_simple. destruct t as [l g]; cbn [fst snd].
  induction l as [|[x|e] l IH]; try reflexivity.
  - destruct g as [|[]| |]; reflexivity.
  - rewrite ncs_cons, crun_nxt. cbn [on_next simple_trans fst snd].
    etransitivity; [apply f_equal, IH|]. reflexivity.
Qed.

Lemma mean_map_error A E F f t : mean (@t_map_error A E F f) t = (fst t, fin_map f (snd t)).
Proof.
  unfold t_map_error. rewrite mean_simple. destruct t as [l g]; cbn [fst snd].
  induction l as [|x l IH].
  - destruct g; reflexivity.
  - rewrite ncs_cons, crun_nxt. cbn [on_next simple_trans fst snd].
    etransitivity; [apply f_equal, IH|]. reflexivity.
Qed.

Lemma mean_map_into A B E F f h t : mean (@t_map_into A B E F f h) t = (map f (fst t), fin_map h (snd t)).
Proof.
  unfold t_map_into. rewrite mean_simple. destruct t as [l g]; cbn [fst snd].
  induction l as [|x l IH].
  - destruct g; reflexivity.
  - rewrite ncs_cons, crun_nxt. cbn [on_next simple_trans fst snd].
    etransitivity; [apply f_equal, IH|]. reflexivity.
Qed.

Lemma mean_mnn B E t : mean (@t_map_never_next B E) t = (absurd_list (fst t), snd t).
Proof.
  unfold t_map_never_next. rewrite mean_simple. destruct t as [[|[]] g]. destruct g; reflexivity.
Qed.
Lemma mean_mne A F t : mean (@t_map_never_error A F) t = (fst t, absurd_fin (snd t)).
Proof.
  unfold t_map_never_error. rewrite mean_simple. destruct t as [l g]; cbn [fst snd].
  induction l as [|x l IH].
  - destruct g as [|[]| |]; reflexivity.
  - rewrite ncs_cons, crun_nxt. cbn [on_next simple_trans fst snd].
    etransitivity; [apply f_equal, IH|]. reflexivity.
Qed.
Lemma mean_mnb B F t : mean (@t_map_never_both B F) t = (absurd_list (fst t), absurd_fin (snd t)).
Proof.
  unfold t_map_never_both. rewrite mean_simple. destruct t as [[|[]] g]. destruct g as [|[]| |]; reflexivity.
Qed.

Lemma flat_strip_map A E (l : list (ncall A E)) : flat_map strip (map (fun n => Do n) l) = l.
Proof. induction l as [|n l IH]; simpl; rewrite ?IH; reflexivity. Qed.

Lemma mean_on_next A E f t : mean (@t_on_next A E f) t =
  cut (flat_map (fun a => fst (f a) ++ if snd (f a) then [Nxt a] else []) (fst t) ++ fin_calls (snd t)).
Proof.
  unfold t_on_next. rewrite mean_simple. destruct t as [l g]; cbn [fst snd].
  induction l as [|x l IH].
  - destruct g; reflexivity.
  - rewrite ncs_cons, crun_nxt. cbn [on_next simple_trans fst snd flat_map].
    rewrite <- app_assoc, cut_app.
    etransitivity; [apply f_equal, IH|]. f_equal.
    unfold acut. rewrite flat_map_app, flat_strip_map. f_equal. f_equal.
    destruct (snd (f x)); reflexivity.
Qed.

