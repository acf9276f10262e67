(** * Reified assumptions in the proof: the whole reification *)
From Coq Require Import List Arith ZArith Lia Bool.
From Verif Require Import Base BaseLemmas Sem Ext MTypes MPMinimal MPrepro VeriPB VeriThm MProofs ProofThm ProofRun ProofCut MTracer TracerThm ReformSpec ReformThm ReformRun MProofAlg ReifSpec ReifThm.
Import ListNotations.
Local Open Scope Z_scope.

(** ** What the definitions of the outputs say *)
Lemma neg_sum : forall (a : pv -> bool) ts, lb_sum a (map (fun t => (fst t, ax_not (snd t))) ts) = wtot ts - lb_sum a ts.
Proof.
  intros a ts. induction ts as [|[w l] ts IH]; [reflexivity|]. cbn [map lb_sum fst snd]. rewrite IH, b2z_not. unfold wtot. cbn [map fst zsum fold_right].
  unfold zsum. lia.
Qed.
Lemma wif_val : forall a D ts o v, w_wf ts -> v <= wtot ts -> ~ In (ax_var o) (map ax_var (map snd ts)) -> wif D ts o v ->
  lb_val a D = wtot ts - lb_sum a ts - (wtot ts - v + 1) * (1 - b2z (ax_true a o)).
Proof.
  intros a D ts o v H Hv Ho [D1 D2]. destruct (wif_concrete ts o v H Hv Ho) as [E1 E2].
  rewrite (same_val D (wif_def ts o v)).
  - unfold lb_val, wif_def. cbn [lb_terms lb_bound]. rewrite lb_sum_app, neg_sum. cbn [lb_sum]. lia.
  - intros x. rewrite D1, E1. reflexivity.
  - rewrite D2, E2. reflexivity.
Qed.
Lemma wonly_val : forall a D ts o v, w_wf ts -> 0 < v -> ~ In (ax_var o) (map ax_var (map snd ts)) -> wonly D ts o v ->
  lb_val a D = lb_sum a ts - v * b2z (ax_true a o).
Proof.
  intros a D ts o v H Hv Ho [D1 D2]. destruct (wonly_concrete ts o v H Hv Ho) as [E1 E2].
  rewrite (same_val D (wonly_def ts o v)).
  - unfold lb_val, wonly_def. cbn [lb_terms lb_bound]. rewrite lb_sum_app. cbn [lb_sum]. rewrite b2z_not. lia.
  - intros x. rewrite D1, E1. reflexivity.
  - rewrite D2, E2. reflexivity.
Qed.
Lemma out_means : forall k e ts v o fi oi a, w_wf ts -> out_at k e ts v o fi oi -> proof_holds a k ->
  (ax_true a (axiom o) = true <-> Z.of_nat v - Z.of_nat (pe_offset e) <= lb_sum a ts).
Proof.
  intros k e ts v o fi oi a Hw [_ P T N (C & IC & HC) (D & ID & HD)] Ha.
  pose proof (Ha _ IC) as X. pose proof (Ha _ ID) as Y. cbn [snd] in X, Y. rewrite val_holds in X, Y.
  rewrite (wif_val a C ts (axiom o) _ Hw T N HC) in X. rewrite (wonly_val a D ts (axiom o) (Z.of_nat v - Z.of_nat (pe_offset e)) Hw) in Y; [|lia|exact N|exact HD].
  destruct (ax_true a (axiom o)); cbn [b2z] in X, Y; split; intros Z0; try reflexivity; try discriminate; lia.
Qed.
(** the output occurs in its definition *)
Lemma out_occurs : forall k e ts v o fi oi, out_at k e ts v o fi oi -> exists x, In x (k_all k) /\ In (PVs (lvar o)) (cvars (snd x)).
Proof.
  intros k e ts v o fi oi [_ P T N (C & IC & [C1 C2]) _]. exists (fi, C). split; [exact IC|]. cbn [snd].
  apply (in_lb_vars pv_eqd). apply lb_vars_support. rewrite C1, t_out by exact N. rewrite cl_one. cbn [axiom ax_var].
  destruct (pv_eqd (PVs (lvar o)) (PVs (lvar o))) as [_|X]; [|contradiction]. unfold sgn. destruct (ax_neg (axiom o)); lia.
Qed.

(** ** A new variable is defined as a literal *)
Lemma put_same : forall a v b, put a v b v = b.
Proof. intros a v b. unfold put. destruct (pv_eqd v v); congruence. Qed.
Lemma put_other : forall a v b x, x <> v -> put a v b x = a x.
Proof. intros a v b x H. unfold put. destruct (pv_eqd v x); congruence. Qed.
Lemma put_holds : forall a v b (c : pconstr), ~ In v (cvars c) -> (lb_holds (put a v b) c <-> lb_holds a c).
Proof.
  intros a v b c H. split; apply lb_holds_ext; intros t Ht; [rewrite put_other|symmetry; rewrite put_other]; try reflexivity;
    intros E; apply H; unfold cvars; rewrite <- E; apply (in_map (fun t => ax_var (snd t))); exact Ht.
Qed.
Lemma red_pair : forall k0 p r x l1 l2, wok k0 p -> (forall a, ord_holds (k_order (kof k0 p)) a a) -> ord_free (k_order (kof k0 p)) (PVs r) ->
  unused (kof k0 p) r -> ax_var x <> PVs r -> (forall n, ax_var x = PVp n -> (n < ps_nextvar p)%nat) ->
  (forall l, In l l1 <-> l = mkAx (PVs r) true \/ l = x) -> (forall l, In l l2 <-> l = mkAx (PVs r) false \/ l = ax_not x) ->
  let p1 := snd (wr_id (SRed (lb_clause l1) [(PVs r, false)] []) p) in
  let p2 := snd (wr_id (SRed (lb_clause l2) [(PVs r, true)] []) p1) in
  wok k0 p2 /\ kof k0 p2 = add_der (add_der (kof k0 p) (lb_clause l1)) (lb_clause l2) /\
  forall a, proof_holds a (kof k0 p) -> proof_holds (put a (PVs r) (ax_true a x)) (kof k0 p2).
Proof.
  intros k0 p r x l1 l2 W Hr Hf Hu Hx Hn H1 H2 p1 p2.
  assert (V1 : step_valid (kof k0 p) (SRed (lb_clause l1) [(PVs r, false)] [])).
  { cbn [step_valid]. apply red_free; [exact Hr|exact Hf| |].
    - intros a Ha. apply lb_clause_holds. exists (mkAx (PVs r) true). split; [apply H1; left; reflexivity|]. unfold ax_true. cbn. rewrite Ha. reflexivity.
    - intros e He. left. exact (Hu e He). }
  destruct (wok_der k0 p _ (lb_clause l1) W V1 eq_refl) as (W1 & I1 & M1).
  { intros n Hin. rewrite lb_clause_vars in Hin. apply in_map_iff in Hin. destruct Hin as (l & E & Hl). apply H1 in Hl.
    destruct Hl as [-> | ->]; [discriminate E|exact (Hn n E)]. }
  fold p1 in W1, I1, M1.
  assert (K1 : kof k0 p1 = add_der (kof k0 p) (lb_clause l1)) by (unfold p1; rewrite kof_wr_id; reflexivity).
  assert (V2 : step_valid (kof k0 p1) (SRed (lb_clause l2) [(PVs r, true)] [])).
  { cbn [step_valid]. apply red_free; [rewrite K1; exact Hr|rewrite K1; exact Hf| |].
    - intros a Ha. apply lb_clause_holds. exists (mkAx (PVs r) false). split; [apply H2; left; reflexivity|]. unfold ax_true. cbn. rewrite Ha. reflexivity.
    - intros e He. rewrite K1 in He. apply in_add_der in He. destruct He as [->|He]; [|left; exact (Hu e He)].
      right. intros a Ha. cbn [snd]. apply lb_clause_holds. exists x. split; [apply H1; right; reflexivity|].
      destruct (ax_true a x) eqn:Ex.
      + rewrite <- Ex. unfold ax_true. rewrite su_one. destruct (pv_eqd (PVs r) (ax_var x)) as [E|_]; [exfalso; apply Hx; symmetry; exact E|reflexivity].
      + exfalso. apply Ha. apply lb_clause_holds. exists (ax_not x). split; [apply H2; right; reflexivity|]. rewrite ax_not_true, Ex. reflexivity. }
  destruct (wok_der k0 p1 _ (lb_clause l2) W1 V2 eq_refl) as (W2 & I2 & M2).
  { intros n Hin. rewrite lb_clause_vars in Hin. apply in_map_iff in Hin. destruct Hin as (l & E & Hl). apply H2 in Hl.
    destruct Hl as [-> | ->]; [discriminate E|exact (Hn n E)]. }
  fold p2 in W2, I2, M2.
  assert (K2 : kof k0 p2 = add_der (add_der (kof k0 p) (lb_clause l1)) (lb_clause l2)) by (unfold p2; rewrite kof_wr_id, K1; reflexivity).
  split; [exact W2|]. split; [exact K2|]. intros a Ha e He.
  assert (Px : ax_true (put a (PVs r) (ax_true a x)) x = ax_true a x) by (unfold ax_true at 1; rewrite put_other by exact Hx; reflexivity).
  assert (Pr : forall s, ax_true (put a (PVs r) (ax_true a x)) (mkAx (PVs r) s) = xorb s (ax_true a x)) by (intros s; unfold ax_true at 1; cbn [ax_var ax_neg]; rewrite put_same; reflexivity).
  rewrite K2 in He. apply in_add_der in He. destruct He as [->|He]; [|apply in_add_der in He; destruct He as [->|He]].
  - cbn [snd]. apply lb_clause_holds. destruct (ax_true a x) eqn:E.
    + exists (mkAx (PVs r) false). split; [apply H2; left; reflexivity|]. exact (Pr false).
    + exists (ax_not x). split; [apply H2; right; reflexivity|]. rewrite ax_not_true, Px. reflexivity.
  - cbn [snd]. apply lb_clause_holds. destruct (ax_true a x) eqn:E.
    + exists x. split; [apply H1; right; reflexivity|]. exact Px.
    + exists (mkAx (PVs r) true). split; [apply H1; left; reflexivity|]. exact (Pr true).
  - apply put_holds; [exact (Hu e He)|exact (Ha e He)].
Qed.

(** [a'] differs from [a] at most at [r] and at proof-only variables introduced since [p] *)
Definition extends_at (p : pst) (r : nat) (a a' : pv -> bool) : Prop :=
  forall v, v <> PVs r -> (forall n, v = PVp n -> (n < ps_nextvar p)%nat) -> a' v = a v.

(** ** No buffered inputs *)
Theorem reif_ok : forall k0 p e ts value r a as_, wok k0 p -> (forall a, ord_holds (k_order (kof k0 p)) a a) ->
  ord_free (k_order (kof k0 p)) (PVs r) -> unused (kof k0 p) r -> w_wf ts -> outs_from (kof k0 p) e ts value (a :: as_) ->
  NoDup (map lvar (a :: as_)) ->
  exists id p', certify_reif e value (mkLit r false) (a :: as_) p = Some (id, p') /\ wok k0 p' /\
    (forall x, In x (k_all (kof k0 p)) -> In x (k_all (kof k0 p'))) /\
    k_core (kof k0 p') = k_core (kof k0 p) /\ k_order (kof k0 p') = k_order (kof k0 p) /\ k_excl (kof k0 p') = k_excl (kof k0 p) /\
    ps_nextvar p' = ps_nextvar p /\ ps_bounds p' = ps_bounds p /\ ps_vmap p' = ps_vmap p ++ [(axiom (mkLit r false), VIdentical a)] /\
    In (id, clause_pb [lnot a; mkLit r false]) (k_all (kof k0 p')) /\
    (exists ids, length ids = S (length as_) /\ ps_reg p' = ps_reg p ++ regs (mkLit r false) (a :: as_) ids /\
       forall c i, In (c, i) (regs (mkLit r false) (a :: as_) ids) -> In (i, clause_pb c) (k_all (kof k0 p'))) /\
    (forall x, proof_holds x (kof k0 p) -> proof_holds (put x (PVs r) (ax_true x (axiom a))) (kof k0 p')) /\
    (forall x, proof_holds x (kof k0 p') -> (x (PVs r) = true <-> lb_sum x ts < Z.of_nat value - Z.of_nat (pe_offset e))).
Proof.
  intros k0 p e ts value r a as_ W Hr Hf Hu Hw ((fi & oi & O1) & Ho) Hnd. set (reif := mkLit r false).
  set (o1 := lnot a) in *.
  assert (Ea : a = lnot o1) by (unfold o1; rewrite lnot_lnot; reflexivity).
  assert (Hx : ax_var (axiom a) <> PVs r).
  { intros E. destruct (out_occurs _ _ _ _ _ _ _ O1) as (x & X1 & X2). apply (Hu x X1). unfold o1 in X2. cbn [axiom ax_var] in E. cbn [lnot lvar] in X2. rewrite <- E. exact X2. }
  destruct (red_pair k0 p r (axiom a) (map axiom (lit_impl_lit reif a)) (map axiom (lit_impl_lit a reif)) W Hr Hf Hu Hx) as (W2 & K2 & S2).
  { intros n E. discriminate E. }
  { intros l. cbn [map lit_impl_lit In]. unfold reif. cbn [lnot axiom lvar lneg negb]. split; [intros [<-|[<-|[]]]; auto|intros [-> | ->]; auto]. }
  { intros l. cbn [map lit_impl_lit In]. rewrite axiom_lnot. unfold reif. cbn [axiom lvar lneg]. split; [intros [<-|[<-|[]]]; auto|intros [-> | ->]; auto]. }
  cbv zeta in *. change (lb_clause (map axiom (lit_impl_lit reif a))) with (clause_pb (lit_impl_lit reif a)) in *.
  change (lb_clause (map axiom (lit_impl_lit a reif))) with (clause_pb (lit_impl_lit a reif)) in *.
  set (p1 := snd (wr_id (SRed (clause_pb (lit_impl_lit reif a)) [(PVs r, false)] []) p)) in *.
  set (p2 := snd (wr_id (SRed (clause_pb (lit_impl_lit a reif)) [(PVs r, true)] []) p1)) in *.
  set (p3 := add_cert (lit_impl_lit reif a) (ps_next p) (push_value (axiom reif, VIdentical a) p2)).
  assert (K3 : kof k0 p3 = kof k0 p2) by reflexivity.
  assert (W3 : wok k0 p3) by (destruct W2 as [w1 w2 w3 w4]; constructor; assumption).
  assert (M3 : forall x, In x (k_all (kof k0 p)) -> In x (k_all (kof k0 p3))).
  { intros x H. rewrite K3, K2. apply in_add_der. right. apply in_add_der. right. exact H. }
  assert (I1 : In (ps_next p, clause_pb (lit_impl_lit reif a)) (k_all (kof k0 p3))).
  { rewrite K3, K2. apply in_add_der. right. apply in_add_der. left. rewrite (wk_next _ _ W). reflexivity. }
  assert (I2 : In (S (ps_next p), clause_pb (lit_impl_lit a reif)) (k_all (kof k0 p3))).
  { rewrite K3, K2. apply in_add_der. left. cbn [add_der k_next]. rewrite (wk_next _ _ W). reflexivity. }
  pose proof (out_at_mono _ _ _ _ _ _ _ _ M3 O1) as O3.
  destruct (reif_loop_ok e value fi oi reif (ps_next p) ts o1 k0 Hw as_ value p3 W3 O3 (outs_after_mono _ _ _ _ _ _ M3 Ho) (le_n _)) as (p' & ids & E & F & L & R & H).
  { rewrite <- Ea. exact I1. }
  { intros b Hb X. cbn [map] in Hnd. apply NoDup_cons_iff in Hnd. destruct Hnd as [Hy _]. apply Hy. change (lvar a) with (lvar o1). rewrite <- X. apply in_map. exact Hb. }
  exists (S (ps_next p)), p'. split.
  { unfold certify_reif. change (wr_id (SRed (clause_pb (lit_impl_lit reif a)) [(PVs (lvar reif), false)] []) p) with (ps_next p, p1). cbv iota beta.
    change (wr_id (SRed (clause_pb (lit_impl_lit a reif)) [(PVs (lvar reif), true)] []) p1) with (S (ps_next p), p2). cbv iota beta.
    destruct O1 as [D1 _ _ _ _ _]. rewrite D1, <- Ea, lit_eqb_refl. fold p3. rewrite E. reflexivity. }
  split; [exact (fr_wok _ _ _ F)|]. split; [intros x X; exact (fr_old _ _ _ F x (M3 x X))|].
  split; [rewrite (fr_core _ _ _ F), K3, K2; reflexivity|]. split; [rewrite (fr_order _ _ _ F), K3, K2; reflexivity|].
  split; [rewrite (fr_excl _ _ _ F), K3, K2; reflexivity|]. split; [exact (fr_nextvar _ _ _ F)|]. split; [exact (fr_bounds _ _ _ F)|].
  split; [exact (fr_vmap _ _ _ F)|]. split; [exact (fr_old _ _ _ F _ I2)|]. split; [|split].
  - exists (ps_next p :: ids). split; [cbn [length]; rewrite L; reflexivity|]. split.
    + rewrite R. cbn [p3 add_cert push_value ps_reg p2 p1 wr_id snd]. unfold regs. cbn [map combine]. rewrite <- app_assoc. reflexivity.
    + intros c i [X|X]; [injection X as <- <-; exact (fr_old _ _ _ F _ I1)|exact (H c i X)].
  - intros x Hxp. apply (fr_sound _ _ _ F). rewrite K3. exact (S2 x Hxp).
  - intros x Hxp. pose proof (out_means _ _ _ _ _ _ _ x Hw (out_at_mono _ _ _ _ _ _ _ _ (fr_old _ _ _ F) O3) Hxp) as X.
    assert (Y : ax_true x (axiom a) = x (PVs r)).
    { pose proof (Hxp _ (fr_old _ _ _ F _ I1)) as Y1. pose proof (Hxp _ (fr_old _ _ _ F _ I2)) as Y2. cbn [snd] in Y1, Y2.
      unfold clause_pb in Y1, Y2. rewrite lb_clause_holds in Y1, Y2. cbn [map lit_impl_lit] in Y1, Y2. rewrite axiom_lnot in Y1, Y2.
      destruct Y1 as (l & Y1 & Z1). destruct Y2 as (l' & Y2 & Z2). cbn [In] in Y1, Y2.
      assert (Er : ax_true x (axiom reif) = x (PVs r)) by (unfold ax_true; cbn; destruct (x (PVs r)); reflexivity).
      destruct (ax_true x (axiom a)) eqn:Ea1, (x (PVs r)) eqn:Er1; try reflexivity.
      - destruct Y2 as [<-|[<-|[]]]; [rewrite ax_not_true, Ea1 in Z2; discriminate|congruence].
      - destruct Y1 as [<-|[<-|[]]]; [rewrite ax_not_true, Er in Z1; discriminate|congruence]. }
    rewrite <- Y. rewrite Ea, axiom_lnot, ax_not_true. destruct (ax_true x (axiom o1)); cbn [negb]; split; intros Z0; try reflexivity; try discriminate; try lia.
Qed.

(** ** Buffered inputs *)
Lemma bound1_val : forall (a : pv -> bool) o v r, lb_val a (bound_def_1 o v r) =
  Z.of_nat (wtotal (obj_iter o)) - Z.of_nat (icost o (on_solver a)) - (Z.of_nat (wtotal (obj_iter o)) + 1 - Z.of_nat v) * (1 - b2z (a r)).
Proof.
  intros a o v r. unfold lb_val, bound_def_1. cbn [lb_terms lb_bound]. rewrite lb_sum_app, obj_terms_neg_sum. cbn [lb_sum].
  unfold ax_true. cbn [ax_neg ax_var]. unfold icost. destruct (a r); cbn [xorb b2z]; ring.
Qed.
Lemma wsum_in : forall a ls l w, In (l, w) ls -> lit_true a l = true -> (w <= wsum a ls)%nat.
Proof.
  intros a ls l w H Hl. induction ls as [|[l' w'] ls IH]; [destruct H|]. cbn [wsum]. destruct H as [H|H].
  - injection H as -> ->. rewrite Hl. lia.
  - specialize (IH H). destruct (lit_true a l'); lia.
Qed.
Lemma part_out_mono : forall k k' o value l d, (forall x, In x (k_all k) -> In x (k_all k')) -> part_out k o value l d -> part_out k' o value l d.
Proof. intros k k' o value l d H (D & ts & v & X1 & X2). exists D, ts, v. split; [exact (H _ X1)|exact X2]. Qed.
Lemma buf_from_mono : forall k k' e o value as_ val, (forall x, In x (k_all k) -> In x (k_all k')) -> buf_from k e o value val as_ -> buf_from k' e o value val as_.
Proof.
  intros k k' e o value as_. induction as_ as [|a r IH]; intros val H X; [exact Logic.I|]. cbn [buf_from] in *.
  destruct X as (ol & i & oi & E & X). exists ol, i, oi. split; [exact E|]. destruct X as [(X1 & X2 & X3)|(X1 & X2 & (d & X3 & X4) & X5)].
  - left. split; [exact X1|]. split; [exact X2|exact (IH _ H X3)].
  - right. split; [exact X1|]. split; [exact X2|]. split; [exists d; split; [exact X3|exact (part_out_mono _ _ _ _ _ _ H X4)]|exact (IH _ H X5)].
Qed.
(** the bound fails if a heavy input or an output of a part is true *)
Lemma heavy_conflict : forall (a : pv -> bool) o value r l, heavy o value l -> a r = false -> ax_true a (axiom l) = true ->
  ~ lb_holds a (bound_def_1 o value r).
Proof.
  intros a o value r l (w & Hi & Hw) Hr Hl H. rewrite bound_def_1_holds in H. specialize (H Hr). rewrite axiom_true in Hl.
  pose proof (wsum_in (on_solver a) (obj_iter o) l w Hi Hl). unfold icost in H. lia.
Qed.
Lemma part_conflict : forall (a : pv -> bool) o value r l D ts v, def_says D ts v (ax_not (axiom l)) -> Z.of_nat value <= v ->
  (forall a, lb_sum a ts <= Z.of_nat (wsum (on_solver a) (obj_iter o))) -> a r = false -> ax_true a (axiom l) = true ->
  ~ lb_holds a (lb_add (bound_def_1 o value r) D).
Proof.
  intros a o value r l D ts v HD Hv Hs Hr Hl H. rewrite val_holds, val_add, bound1_val, HD, Hr, ax_not_true, Hl in H. specialize (Hs a).
  unfold icost in H. cbn [negb b2z] in H. lia.
Qed.
Lemma reif_loop_buf_ok : forall e o value n d1 reif ifd k0, forall as_ val p,
  wok k0 p -> In (d1, bound_def_1 o value (PVp n)) (k_all (kof k0 p)) ->
  In (ifd, lb_clause [axiom (lnot reif); mkAx (PVp n) true]) (k_all (kof k0 p)) ->
  buf_from (kof k0 p) e o value val as_ ->
  exists p' ids, reif_loop_buf e d1 reif ifd val as_ p = Some p' /\ frame k0 p p' /\ length ids = length as_ /\
    ps_reg p' = ps_reg p ++ regs reif as_ ids /\
    forall c id, In (c, id) (regs reif as_ ids) -> In (id, clause_pb c) (k_all (kof k0 p')).
Proof.
  intros e o value n d1 reif ifd k0 as_. induction as_ as [|a r IH]; intros val p W Hd1 Hifd Ho.
  { exists p, []. split; [reflexivity|]. split; [apply frame_refl; exact W|]. split; [reflexivity|]. split; [symmetry; apply app_nil_r|]. intros c id []. }
  cbn [buf_from] in Ho. destruct Ho as (olit & i & oi & Ed & Ho). set (cl := lit_impl_lit reif a).
  (* the negated clause and the definition make the bound literal false *)
  assert (Hm : forall m, In m [mkAx (PVp n) true] -> exists c, In c [lb_clause [axiom (lnot reif); mkAx (PVp n) true]] /\
    forall x, (forall l, In l (map axiom cl) -> ax_true x l = false) -> lb_holds x c -> ax_true x m = true).
  { intros m [<-|[]]. eexists. split; [left; reflexivity|]. intros x Hx Hh. rewrite lb_clause_holds in Hh. destruct Hh as (l & [<-|[<-|[]]] & Hl); [|exact Hl].
    rewrite Hx in Hl; [discriminate|left; reflexivity]. }
  assert (Hf : forall x, (forall m, In m [mkAx (PVp n) true] -> ax_true x m = true) -> x (PVp n) = false).
  { intros x Hx. specialize (Hx _ (or_introl eq_refl)). unfold ax_true in Hx. cbn in Hx. destruct (x (PVp n)); [discriminate|reflexivity]. }
  assert (Ha : forall x, (forall l, In l (map axiom cl) -> ax_true x l = false) -> ax_true x (axiom (lnot a)) = true).
  { intros x Hx. rewrite axiom_lnot, ax_not_true, Hx; [reflexivity|]. right. left. reflexivity. }
  destruct Ho as [(Hlt & Hh & Ho)|(Hge & Hal & (d & Hoi & (D & ts & v & ID & HD & Hv & Hs)) & Ho)].
  - destruct (frame_rup k0 p p (clause_pb cl) [ifd; d1] [lb_clause [axiom (lnot reif); mkAx (PVp n) true]; bound_def_1 o value (PVp n)] (frame_refl k0 p W)) as (F2 & I2 & M2).
    { constructor; [exact Hifd|]. constructor; [exact Hd1|constructor]. }
    { unfold clause_pb. apply (rup_two _ (map axiom cl) [mkAx (PVp n) true]).
      - intros m H. destruct (Hm m H) as (c & [<-|[]] & X). eexists. split; [left; reflexivity|exact X].
      - exists (bound_def_1 o value (PVp n)). split; [right; left; reflexivity|]. intros x Hx Hx2. apply (heavy_conflict x o value (PVp n) (lnot a) Hh); [exact (Hf x Hx2)|exact (Ha x Hx)]. }
    { intros m H. exfalso. exact (clause_vars _ _ H). }
    change (map CAbs [ifd; d1]) with [CAbs ifd; CAbs d1] in F2, I2, M2.
    set (p2 := snd (wr_id (SRup (clause_pb cl) [CAbs ifd; CAbs d1]) p)) in *.
    pose proof (frame_cert k0 p p2 cl (ps_next p) F2) as F3. set (p3 := add_cert cl (ps_next p) p2) in *.
    destruct (IH val p3 (fr_wok _ _ _ F3) (M2 _ Hd1) (M2 _ Hifd) (buf_from_mono _ _ _ _ _ _ _ M2 Ho)) as (p4 & ids & E4 & F4 & L4 & R4 & H4).
    exists p4, (ps_next p :: ids). split; [|split; [exact (frame_trans _ _ _ _ F3 F4)|]].
    + cbn [reif_loop_buf]. rewrite Ed. destruct (Nat.ltb_spec (lvar a) (lvar olit)); [|lia]. unfold wr_id. exact E4.
    + split; [cbn [length]; rewrite L4; reflexivity|]. split.
      * rewrite R4. cbn [p3 add_cert ps_reg p2 wr_id snd]. unfold regs. cbn [map combine]. rewrite <- app_assoc. reflexivity.
      * intros c id Hc. unfold regs in Hc. cbn [map combine] in Hc. destruct Hc as [Hc|Hc]; [|exact (H4 c id Hc)].
        injection Hc as <- <-. apply (fr_old _ _ _ F4). exact I2.
  - subst oi. pose proof (wk_ids _ _ W) as Wi.
    destruct (frame_pol k0 p p (PAdd (PC (CAbs d1)) (PC (CAbs d))) (lb_add (bound_def_1 o value (PVp n)) D) (frame_refl k0 p W)) as (F1 & I1 & M1).
    { cbn [pol_eval]. unfold kget. cbn [id_get]. rewrite (k_get _ _ _ Wi Hd1), (k_get _ _ _ Wi ID). reflexivity. }
    set (p1 := snd (wr_id (SPol (PAdd (PC (CAbs d1)) (PC (CAbs d)))) p)) in *.
    destruct (frame_rup k0 p p1 (clause_pb cl) [ifd; ps_next p] [lb_clause [axiom (lnot reif); mkAx (PVp n) true]; lb_add (bound_def_1 o value (PVp n)) D] F1) as (F2 & I2 & M2).
    { constructor; [exact (M1 _ Hifd)|]. constructor; [exact I1|constructor]. }
    { unfold clause_pb. apply (rup_two _ (map axiom cl) [mkAx (PVp n) true]).
      - intros m H. destruct (Hm m H) as (c & [<-|[]] & X). eexists. split; [left; reflexivity|exact X].
      - eexists. split; [right; left; reflexivity|]. intros x Hx Hx2. apply (part_conflict x o value (PVp n) olit D ts v HD Hv Hs); [exact (Hf x Hx2)|].
        rewrite <- (lnot_lnot olit), <- Hal. exact (Ha x Hx). }
    { intros m H. exfalso. exact (clause_vars _ _ H). }
    change (map CAbs [ifd; ps_next p]) with [CAbs ifd; CAbs (ps_next p)] in F2, I2, M2.
    set (p2 := snd (wr_id (SRup (clause_pb cl) [CAbs ifd; CAbs (ps_next p)]) p1)) in *.
    destruct (frame_del k0 p p2 [ps_next p] W F2) as (F3 & M3).
    { intros j [<-|[]]. lia. }
    change (map CAbs [ps_next p]) with [CAbs (ps_next p)] in F3, M3.
    pose proof (frame_cert k0 p _ cl (ps_next p1) F3) as F4. set (p4 := add_cert cl (ps_next p1) (wr (SDel [CAbs (ps_next p)] []) p2)) in *.
    destruct (IH (pe_next_higher e val) p4 (fr_wok _ _ _ F4) (fr_old _ _ _ F4 _ Hd1) (fr_old _ _ _ F4 _ Hifd) (buf_from_mono _ _ _ _ _ _ _ (fr_old _ _ _ F4) Ho)) as (p5 & ids & E5 & F5 & L5 & R5 & H5).
    exists p5, (ps_next p1 :: ids). split; [|split; [exact (frame_trans _ _ _ _ F4 F5)|]].
    + cbn [reif_loop_buf]. rewrite Ed. destruct (Nat.ltb_spec (lvar a) (lvar olit)); [lia|]. rewrite Hal, lit_eqb_refl, <- Hal. unfold wr_id. exact E5.
    + split; [cbn [length]; rewrite L5; reflexivity|]. split.
      * rewrite R5. cbn [p4 wr add_cert ps_reg p2 wr_id snd p1]. unfold regs. cbn [map combine]. rewrite <- app_assoc. reflexivity.
      * intros c id Hc. unfold regs in Hc. cbn [map combine] in Hc. destruct Hc as [Hc|Hc]; [|exact (H5 c id Hc)].
        injection Hc as <- <-. apply (fr_old _ _ _ F5). apply M3; [exact I2|].
        intros [X|[]]. change (ps_next p = S (ps_next p)) in X. lia.
Qed.
Lemma bounds_mono : forall k0 objs p p', bounds_ok k0 objs p -> ps_bounds p' = ps_bounds p ->
  (forall x, In x (k_all (kof k0 p)) -> In x (k_all (kof k0 p'))) -> (forall x, In x (ps_vmap p) -> In x (ps_vmap p')) -> bounds_ok k0 objs p'.
Proof.
  intros k0 objs p p' B E H V i v l d1 d2 Hg. rewrite E in Hg. destruct (B _ _ _ _ _ Hg) as (o & n & X1 & X2 & X3 & X4 & X5 & X6).
  exists o, n. do 3 (split; [assumption|]). split; [exact (H _ X4)|]. split; [exact (H _ X5)|exact (V _ X6)].
Qed.
(** a reified bound can always be given a value *)
Lemma bound_extends : forall k0 objs o v p l d1 d2 p',
  (forall a, ord_holds (k_order (kof k0 p)) a a) ->
  (forall o1 o2, In o1 objs -> In o2 objs -> obj_idx o1 = obj_idx o2 -> o1 = o2) -> In o objs ->
  wok k0 p -> bounds_ok k0 objs p -> get_obj_bound v o p = ((l, d1, d2), p') ->
  forall a, proof_holds a (kof k0 p) -> exists a', proof_holds a' (kof k0 p') /\
    forall x, (forall n, x = PVp n -> (n < ps_nextvar p)%nat) -> a' x = a x.
Proof.
  intros k0 objs o v p l d1 d2 p' Hr Hidx Hin W B E a Ha.
  destruct (get_obj_bound_ok k0 objs o v p l d1 d2 p' Hr Hidx Hin W B E) as (W' & B' & _ & _ & Mono & _ & _ & Eco & _ & _ & Cases).
  destruct Cases as [(_ & Ed)|(El & En & _ & Ed)].
  - exists a. split; [|reflexivity]. intros e He. apply Ha. apply in_k_all in He. apply in_k_all. rewrite Eco, Ed in He. exact He.
  - set (n := ps_nextvar p) in *. set (b := (v <=? icost o (on_solver a))%nat). exists (put a (PVp n) b). split.
    + assert (Ic : icost o (on_solver (put a (PVp n) b)) = icost o (on_solver a)).
      { unfold icost. apply wsum_ext. intros lw _. unfold lit_true, on_solver. rewrite put_other by discriminate. reflexivity. }
      intros e He. apply in_k_all in He. rewrite Eco, Ed in He. destruct He as [He|[<-|[<-|He]]].
      * apply put_holds; [|apply Ha; apply in_k_all; left; exact He]. intros X. pose proof (wk_fresh _ _ W e n (proj2 (in_k_all _ _) (or_introl He)) X). unfold n in *. lia.
      * cbn [snd]. apply bound_def_2_holds. rewrite Ic, put_same. unfold b. intros X. apply Nat.leb_le. exact X.
      * cbn [snd]. apply bound_def_1_holds. rewrite Ic, put_same. unfold b. intros X. apply Nat.leb_gt. exact X.
      * apply put_holds; [|apply Ha; apply in_k_all; right; exact He]. intros X. pose proof (wk_fresh _ _ W e n (proj2 (in_k_all _ _) (or_intror He)) X). unfold n in *. lia.
    + intros x Hx. apply put_other. intros ->. specialize (Hx n eq_refl). unfold n in Hx. lia.
Qed.

Theorem reif_buf_full : forall k0 objs p e o value r as_, wok k0 p -> (forall a, ord_holds (k_order (kof k0 p)) a a) ->
  ord_free (k_order (kof k0 p)) (PVs r) -> unused (kof k0 p) r ->
  (forall o1 o2, In o1 objs -> In o2 objs -> obj_idx o1 = obj_idx o2 -> o1 = o2) -> In o objs -> bounds_ok k0 objs p ->
  (forall l w, In (l, w) (obj_iter o) -> lvar l <> r) -> buf_from (kof k0 p) e o value value as_ ->
  exists id p' n, certify_reif_buf e o value (mkLit r false) as_ p = Some (id, p') /\ wok k0 p' /\ bounds_ok k0 objs p' /\
    (forall x, In x (k_all (kof k0 p)) -> In x (k_all (kof k0 p'))) /\
    k_core (kof k0 p') = k_core (kof k0 p) /\ k_order (kof k0 p') = k_order (kof k0 p) /\ k_excl (kof k0 p') = k_excl (kof k0 p) /\
    (exists d1 d2, bound_get (ps_bounds p') (obj_idx o, value) = Some (mkAx (PVp n) false, d1, d2)) /\
    (exists vm, ps_vmap p' = ps_vmap p ++ vm /\ In (axiom (mkLit r true), VObjAtLeast (obj_idx o) value) vm /\
       forall x, In x vm -> x = (axiom (mkLit r true), VObjAtLeast (obj_idx o) value) \/ x = (mkAx (PVp n) false, VObjAtLeast (obj_idx o) value)) /\
    In (id, lb_clause [axiom (mkLit r false); mkAx (PVp n) false]) (k_all (kof k0 p')) /\
    (exists ids, length ids = length as_ /\ ps_reg p' = ps_reg p ++ regs (mkLit r false) as_ ids /\
       forall c i, In (c, i) (regs (mkLit r false) as_ ids) -> In (i, clause_pb c) (k_all (kof k0 p'))) /\
    (forall x, proof_holds x (kof k0 p) -> exists x', extends_at p r x x' /\ proof_holds x' (kof k0 p')) /\
    (forall x, proof_holds x (kof k0 p') -> (x (PVs r) = true <-> (icost o (on_solver x) < value)%nat)) /\
    (exists ifd, In (ifd, lb_clause [axiom (mkLit r true); mkAx (PVp n) true]) (k_all (kof k0 p'))) /\
    (exists d1, In (d1, bound_def_1 o value (PVp n)) (k_all (kof k0 p'))) /\
    (n < ps_nextvar p')%nat /\ (forall m, (ps_nextvar p <= m < ps_nextvar p')%nat -> m = n).
Proof.
  intros k0 objs p e o value r as_ W Hr Hf Hu Hidx Hin B Hov Hbuf. set (reif := mkLit r false).
  destruct (get_obj_bound value o p) as [[[ideal d1] d2] p0] eqn:Eg.
  pose proof (bound_extends k0 objs o value p ideal d1 d2 p0 Hr Hidx Hin W B Eg) as Bx.
  destruct (get_obj_bound_ok k0 objs o value p ideal d1 d2 p0 Hr Hidx Hin W B Eg) as (W0 & B0 & (n & El & I1 & I2) & Iv & M0 & Eo & Ex & Ec & Erg & Env & Cases).
  assert (Bg : bound_get (ps_bounds p0) (obj_idx o, value) = Some (ideal, d1, d2)).
  { unfold get_obj_bound in Eg. destruct (bound_get (ps_bounds p) (obj_idx o, value)) as [x|] eqn:G.
    - injection Eg as -> <-. exact G.
    - cbv zeta in Eg. unfold new_proof_var, wr_id in Eg. injection Eg as <- <- <- <-. cbn [add_bound ps_bounds bound_get].
      unfold key_eqb. cbn [fst snd]. rewrite !Nat.eqb_refl. reflexivity. }
  assert (Hn : (n < ps_nextvar p0)%nat).
  { apply (wk_fresh _ _ W0 _ n I1). cbn [snd]. unfold cvars, bound_def_1. cbn [lb_terms]. rewrite map_app. apply in_or_app. right. left. reflexivity. }
  assert (Hu0 : unused (kof k0 p0) r).
  { intros x Hx X. destruct Cases as [(_ & Ed)|(El' & _ & _ & Ed)].
    - apply (Hu x); [|exact X]. apply in_k_all. apply in_k_all in Hx. rewrite Ec, Ed in Hx. exact Hx.
    - apply in_k_all in Hx. rewrite Ec, Ed in Hx.
      assert (Q : forall (f : lit * nat -> Z * ax pv) (z : Z), In (PVs r) (map (fun t : Z * ax pv => ax_var (snd t)) (map f (obj_iter o) ++ [(z, mkAx (PVp (ps_nextvar p)) true)])) ->
                   (forall lw, In lw (obj_iter o) -> ax_var (snd (f lw)) = PVs (lvar (fst lw))) -> False).
      { intros f z Y Hfv. rewrite map_app, in_app_iff in Y. destruct Y as [Y|[Y|[]]]; [|discriminate]. rewrite map_map in Y. apply in_map_iff in Y.
        destruct Y as (lw & E & Hlw). rewrite (Hfv lw Hlw) in E. injection E as E. destruct lw as [l w]. exact (Hov l w Hlw E). }
      destruct Hx as [Hx|[<-|[<-|Hx]]].
      + apply (Hu x); [|exact X]. apply in_k_all. left. exact Hx.
      + exact (Q (fun lw => (Z.of_nat (snd lw), axiom (fst lw))) (Z.of_nat value) X (fun _ _ => eq_refl)).
      + unfold cvars, bound_def_1 in X. cbn [snd lb_terms] in X. rewrite map_app, in_app_iff in X. destruct X as [X|[X|[]]]; [|discriminate].
        apply (Q (fun lw => (Z.of_nat (snd lw), ax_not (axiom (fst lw)))) 0); [|intros; reflexivity]. rewrite map_app. apply in_or_app. left. exact X.
      + apply (Hu x); [|exact X]. apply in_k_all. right. exact Hx. }
  assert (Hm : forall m, (ps_nextvar p <= m < ps_nextvar p0)%nat -> m = n).
  { intros m X. unfold get_obj_bound in Eg. destruct (bound_get (ps_bounds p) (obj_idx o, value)) as [x|] eqn:G.
    - injection Eg as _ <-. lia.
    - cbv zeta in Eg. unfold new_proof_var, wr_id in Eg. injection Eg as <- _ _ <-. cbn [add_bound push_value ps_nextvar] in X. injection El as <-. lia. }
  subst ideal.
  destruct (red_pair k0 p0 r (mkAx (PVp n) true) [axiom (lnot reif); mkAx (PVp n) true] [axiom reif; mkAx (PVp n) false] W0) as (W2 & K2 & S2).
  { rewrite Eo. exact Hr. }
  { rewrite Eo. exact Hf. }
  { exact Hu0. }
  { discriminate. }
  { intros m E. injection E as <-. exact Hn. }
  { intros l. cbn [In]. unfold reif. cbn [lnot axiom lvar lneg negb]. split; [intros [<-|[<-|[]]]; auto|intros [-> | ->]; auto]. }
  { intros l. cbn [In]. unfold reif, ax_not. cbn [axiom lvar lneg negb ax_var ax_neg]. split; [intros [<-|[<-|[]]]; auto|intros [-> | ->]; auto]. }
  cbv zeta in *.
  set (p1 := snd (wr_id (SRed (lb_clause [axiom (lnot reif); mkAx (PVp n) true]) [(PVs r, false)] []) p0)) in *.
  set (p2 := snd (wr_id (SRed (lb_clause [axiom reif; mkAx (PVp n) false]) [(PVs r, true)] []) p1)) in *.
  set (p3 := push_value (axiom (lnot reif), VObjAtLeast (obj_idx o) value) p2).
  assert (K3 : kof k0 p3 = kof k0 p2) by reflexivity.
  assert (W3 : wok k0 p3) by (destruct W2 as [w1 w2 w3 w4]; constructor; assumption).
  assert (M3 : forall x, In x (k_all (kof k0 p0)) -> In x (k_all (kof k0 p3))).
  { intros x H. rewrite K3, K2. apply in_add_der. right. apply in_add_der. right. exact H. }
  assert (J1 : In (ps_next p0, lb_clause [axiom (lnot reif); mkAx (PVp n) true]) (k_all (kof k0 p3))).
  { rewrite K3, K2. apply in_add_der. right. apply in_add_der. left. rewrite (wk_next _ _ W0). reflexivity. }
  assert (J2 : In (S (ps_next p0), lb_clause [axiom reif; mkAx (PVp n) false]) (k_all (kof k0 p3))).
  { rewrite K3, K2. apply in_add_der. left. cbn [add_der k_next]. rewrite (wk_next _ _ W0). reflexivity. }
  destruct (reif_loop_buf_ok e o value n d1 reif (ps_next p0) k0 as_ value p3 W3 (M3 _ I1) J1) as (p' & ids & E & F & L & R & H).
  { apply (buf_from_mono (kof k0 p)); [|exact Hbuf]. intros x X. exact (M3 _ (M0 _ X)). }
  exists (S (ps_next p0)), p', n. split.
  { unfold certify_reif_buf. rewrite Eg. change (ax_not (mkAx (PVp n) false)) with (mkAx (PVp n) true).
    change (wr_id (SRed (lb_clause [axiom (lnot reif); mkAx (PVp n) true]) [(PVs (lvar reif), false)] []) p0) with (ps_next p0, p1). cbv iota beta.
    change (wr_id (SRed (lb_clause [axiom reif; mkAx (PVp n) false]) [(PVs (lvar reif), true)] []) p1) with (S (ps_next p0), p2). cbv iota beta.
    fold p3. rewrite E. reflexivity. }
  split; [exact (fr_wok _ _ _ F)|]. split.
  { apply (bounds_mono k0 objs p0 p' B0); [exact (fr_bounds _ _ _ F)|intros x X; exact (fr_old _ _ _ F _ (M3 _ X))|].
    intros x X. rewrite (fr_vmap _ _ _ F). cbn [p3 push_value ps_vmap]. apply in_or_app. left. exact X. }
  split; [intros x X; exact (fr_old _ _ _ F x (M3 x (M0 x X)))|].
  split; [rewrite (fr_core _ _ _ F), K3, K2; exact Ec|]. split; [rewrite (fr_order _ _ _ F), K3, K2; exact Eo|].
  split; [rewrite (fr_excl _ _ _ F), K3, K2; exact Ex|].
  split; [exists d1, d2; rewrite (fr_bounds _ _ _ F); exact Bg|]. split.
  { rewrite (fr_vmap _ _ _ F). change (ps_vmap p3) with (ps_vmap p0 ++ [(axiom (mkLit r true), VObjAtLeast (obj_idx o) value)]).
    destruct Cases as [(Ev & _)|(El' & _ & Ev & _)]; rewrite Ev.
    - eexists. split; [reflexivity|]. split; [left; reflexivity|]. intros x [<-|[]]. left. reflexivity.
    - rewrite <- app_assoc. eexists. split; [reflexivity|]. split; [right; left; reflexivity|]. intros x [<-|[<-|[]]]; [right|left]; reflexivity. }
  split; [exact (fr_old _ _ _ F _ J2)|]. split; [|split; [|split]].
  - exists ids. split; [exact L|]. split; [|exact H]. rewrite R. cbn [p3 push_value ps_reg p2 p1 wr_id snd]. rewrite Erg. reflexivity.
  - intros x Hx. destruct (Bx x Hx) as (x1 & H1 & Hd). exists (put x1 (PVs r) (ax_true x1 (mkAx (PVp n) true))). split.
    + intros v Hv Hvn. rewrite put_other by exact Hv. exact (Hd v Hvn).
    + apply (fr_sound _ _ _ F). rewrite K3. exact (S2 x1 H1).
  - intros x Hx. pose proof (Hx _ (fr_old _ _ _ F _ (M3 _ I1))) as X1. pose proof (Hx _ (fr_old _ _ _ F _ (M3 _ I2))) as X2.
    cbn [snd] in X1, X2. rewrite bound_def_1_holds in X1. rewrite bound_def_2_holds in X2.
    pose proof (Hx _ (fr_old _ _ _ F _ J1)) as Y1. pose proof (Hx _ (fr_old _ _ _ F _ J2)) as Y2. cbn [snd] in Y1, Y2. rewrite lb_clause_holds in Y1, Y2.
    destruct Y1 as (l & Y1 & Z1). destruct Y2 as (l' & Y2 & Z2). unfold reif in Y1, Y2. cbn [In lnot axiom lvar lneg negb] in Y1, Y2. unfold ax_true in Z1, Z2.
    destruct (x (PVp n)) eqn:E1.
    + specialize (X2 eq_refl). destruct Y1 as [<-|[<-|[]]]; cbn [ax_var ax_neg] in Z1; [|rewrite E1 in Z1; discriminate].
      split; [|lia]. intros Z3. change (xorb true (x (PVs r)) = true) in Z1. rewrite Z3 in Z1. discriminate.
    + specialize (X1 eq_refl). destruct Y2 as [<-|[<-|[]]]; cbn [ax_var ax_neg] in Z2; [|rewrite E1 in Z2; discriminate].
      split; [intros _; exact X1|]. intros _. change (xorb false (x (PVs r)) = true) in Z2. destruct (x (PVs r)); [reflexivity|discriminate].
  - split; [exists (ps_next p0); exact (fr_old _ _ _ F _ J1)|]. split; [exists d1; exact (fr_old _ _ _ F _ (M3 _ I1))|].
    rewrite (fr_nextvar _ _ _ F). change (ps_nextvar p3) with (ps_nextvar p0). split; [exact Hn|exact Hm].
Qed.
Theorem reif_buf_ok : forall k0 objs p e o value r as_, wok k0 p -> (forall a, ord_holds (k_order (kof k0 p)) a a) ->
  ord_free (k_order (kof k0 p)) (PVs r) -> unused (kof k0 p) r ->
  (forall o1 o2, In o1 objs -> In o2 objs -> obj_idx o1 = obj_idx o2 -> o1 = o2) -> In o objs -> bounds_ok k0 objs p ->
  (forall l w, In (l, w) (obj_iter o) -> lvar l <> r) -> buf_from (kof k0 p) e o value value as_ ->
  exists id p' n, certify_reif_buf e o value (mkLit r false) as_ p = Some (id, p') /\ wok k0 p' /\ bounds_ok k0 objs p' /\
    (forall x, In x (k_all (kof k0 p)) -> In x (k_all (kof k0 p'))) /\
    k_core (kof k0 p') = k_core (kof k0 p) /\ k_order (kof k0 p') = k_order (kof k0 p) /\ k_excl (kof k0 p') = k_excl (kof k0 p) /\
    (exists d1 d2, bound_get (ps_bounds p') (obj_idx o, value) = Some (mkAx (PVp n) false, d1, d2)) /\
    (exists vm, ps_vmap p' = ps_vmap p ++ vm /\ In (axiom (mkLit r true), VObjAtLeast (obj_idx o) value) vm /\
       forall x, In x vm -> x = (axiom (mkLit r true), VObjAtLeast (obj_idx o) value) \/ x = (mkAx (PVp n) false, VObjAtLeast (obj_idx o) value)) /\
    In (id, lb_clause [axiom (mkLit r false); mkAx (PVp n) false]) (k_all (kof k0 p')) /\
    (exists ids, length ids = length as_ /\ ps_reg p' = ps_reg p ++ regs (mkLit r false) as_ ids /\
       forall c i, In (c, i) (regs (mkLit r false) as_ ids) -> In (i, clause_pb c) (k_all (kof k0 p'))) /\
    (forall x, proof_holds x (kof k0 p) -> exists x', extends_at p r x x' /\ proof_holds x' (kof k0 p')) /\
    (forall x, proof_holds x (kof k0 p') -> (x (PVs r) = true <-> (icost o (on_solver x) < value)%nat)).
Proof.
  intros k0 objs p e o value r as_ H1 H2 H3 H4 H5 H6 H7 H8 H9.
  destruct (reif_buf_full k0 objs p e o value r as_ H1 H2 H3 H4 H5 H6 H7 H8 H9) as (id & p' & n & A1 & A2 & A3 & A4 & A5 & A6 & A7 & A8 & A9 & B1 & B2 & B3 & B4 & _).
  exists id, p', n. repeat (split; [assumption|]). exact B4.
Qed.
