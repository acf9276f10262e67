(** * Implications between the outputs of an encoding, and lines that use them *)
From Coq Require Import List Arith ZArith Lia Bool.
From Verif Require Import Base BaseLemmas Sem MTypes MPMinimal MPrepro VeriPB VeriThm MProofs ProofThm ProofRun ProofCut MTracer TracerThm ReformSpec ReformThm ReformRun MProofAlg ReifSpec.
Import ListNotations.
Local Open Scope Z_scope.

(** ** Weighted sums *)
Lemma w_cons : forall w l ts, w_wf ((w, l) :: ts) -> w_wf ts /\ 0 < w /\ ~ In (ax_var l) (map ax_var (map snd ts)).
Proof.
  intros w l ts [H1 H2]. unfold proper_ls in H1. cbn [map snd] in H1. inversion H1 as [|x xs Hx Hr]; subst. split.
  - split; [exact Hr|]. intros t Ht. apply H2. right. exact Ht.
  - split; [exact (H2 (w, l) (or_introl eq_refl))|exact Hx].
Qed.
Lemma snd_vars : forall ts : list (Z * ax pv), map ax_var (map snd ts) = map (fun t => ax_var (snd t)) ts.
Proof. intros. apply map_map. Qed.
Lemma t_out : forall ts v, ~ In v (map ax_var (map snd ts)) -> t_coef pv_eqd ts v = 0.
Proof. intros ts v H. apply t_coef_out. rewrite <- snd_vars. exact H. Qed.
Lemma w_abs : forall ts vs, w_wf ts -> NoDup vs -> incl (map ax_var (map snd ts)) vs ->
  vsum vs (fun x => Z.abs (t_coef pv_eqd ts x)) = wtot ts.
Proof.
  induction ts as [|[w l] ts IH]; intros vs H Hn Hi; [apply vsum_0; reflexivity|].
  apply w_cons in H. destruct H as (H & Hw & Hl).
  rewrite (vsum_ext vs _ (fun x => (if pv_eqd (ax_var l) x then w else 0) + Z.abs (t_coef pv_eqd ts x))).
  - rewrite vsum_add, (IH vs H Hn). 2: { intros x Hx. apply Hi. right. exact Hx. }
    rewrite (vsum_single vs (ax_var l)); [|exact Hn|apply Hi; left; reflexivity|].
    + destruct (pv_eqd (ax_var l) (ax_var l)) as [_|N]; [|contradiction]. reflexivity.
    + intros x _ Hx. destruct (pv_eqd (ax_var l) x) as [E|_]; [exfalso; apply Hx; symmetry; exact E|reflexivity].
  - intros x _. cbn [t_coef]. destruct (pv_eqd (ax_var l) x) as [<-|N]; [|reflexivity].
    rewrite (t_out ts _ Hl). destruct (ax_neg l); lia.
Qed.
Lemma t_in : forall ts x, w_wf ts -> In x (map ax_var (map snd ts)) -> t_coef pv_eqd ts x <> 0.
Proof.
  induction ts as [|[w l] ts IH]; intros x H Hx; [destruct Hx|]. apply w_cons in H. destruct H as (H & Hw & Hl). cbn [t_coef].
  destruct Hx as [E|Hx]; cbn [snd] in *.
  - destruct (pv_eqd (ax_var l) x) as [_|N]; [|contradiction]. subst x. rewrite (t_out ts _ Hl). destruct (ax_neg l); lia.
  - destruct (pv_eqd (ax_var l) x) as [<-|_]; [contradiction|]. exact (IH x H Hx).
Qed.
Lemma wtot_nonneg : forall ts, w_wf ts -> 0 <= wtot ts.
Proof.
  induction ts as [|[w l] ts IH]; intros H; [unfold wtot; cbn; lia|]. apply w_cons in H. destruct H as (H & Hw & _).
  specialize (IH H). unfold wtot in *. cbn [map fst zsum fold_right]. unfold zsum in IH. lia.
Qed.

(** the concrete definitions *)
Lemma t_coef_neg : forall ts v, t_coef pv_eqd (map (fun t => (fst t, ax_not (snd t))) ts) v = - t_coef pv_eqd ts v.
Proof.
  induction ts as [|[w l] ts IH]; intros v; [reflexivity|]. cbn [map t_coef fst snd]. rewrite IH. unfold ax_not. cbn [ax_var ax_neg].
  destruct (pv_eqd (ax_var l) v); [destruct (ax_neg l); cbn [negb]; lia|lia].
Qed.
Lemma w_degree : forall ts k, w_wf ts -> lb_degree pv_eqd (mkLb ts k) = k.
Proof.
  intros ts k H. set (c := mkLb ts k). unfold lb_degree, lb_rhs. unfold c at 1 2. cbn [lb_terms lb_bound].
  rewrite vsum_zsum.
  assert (G : forall us vs, w_wf us -> NoDup vs -> incl (map ax_var (map snd us)) vs ->
            vsum vs (fun v => Z.max 0 (- t_coef pv_eqd us v)) = t_const us).
  { clear. induction us as [|[w l] us IH]; intros vs H Hn Hi; [apply vsum_0; reflexivity|].
    apply w_cons in H. destruct H as (H & Hw & Hl).
    rewrite (vsum_ext vs _ (fun x => (if pv_eqd (ax_var l) x then if ax_neg l then w else 0 else 0) + Z.max 0 (- t_coef pv_eqd us x))).
    - rewrite vsum_add, (IH vs H Hn). 2: { intros x Hx. apply Hi. right. exact Hx. }
      rewrite (vsum_single vs (ax_var l)); [|exact Hn|apply Hi; left; reflexivity|].
      + destruct (pv_eqd (ax_var l) (ax_var l)) as [_|N]; [|contradiction]. reflexivity.
      + intros x _ Hx. destruct (pv_eqd (ax_var l) x) as [E|_]; [exfalso; apply Hx; symmetry; exact E|reflexivity].
    - intros x _. cbn [t_coef]. destruct (pv_eqd (ax_var l) x) as [<-|N]; [|reflexivity].
      rewrite (t_out us _ Hl). destruct (ax_neg l); lia. }
  change (vsum (lb_vars pv_eqd c) (fun v => Z.max 0 (- t_coef pv_eqd ts v))) with (vsum (lb_vars pv_eqd c) (fun v => Z.max 0 (- t_coef pv_eqd ts v))).
  unfold lb_coef. cbn [c lb_terms]. rewrite (G ts (lb_vars pv_eqd c) H (lb_vars_nodup pv_eqd c)); [lia|].
  intros x Hx. apply in_lb_vars. cbn [c lb_terms]. rewrite <- snd_vars. exact Hx.
Qed.
Lemma w_snoc : forall ts k l, w_wf ts -> 0 < k -> ~ In (ax_var l) (map ax_var (map snd ts)) -> w_wf (ts ++ [(k, l)]).
Proof.
  intros ts k l [H1 H2] Hk Hl. split.
  - unfold proper_ls in *. rewrite !map_app. cbn [map snd]. apply (NoDup_Add (a := ax_var l) (l := map ax_var (map snd ts))).
    + rewrite <- (app_nil_r (map ax_var (map snd ts))) at 1. apply Add_app.
    + split; assumption.
  - intros t Ht. apply in_app_or in Ht. destruct Ht as [Ht|[<-|[]]]; [exact (H2 t Ht)|exact Hk].
Qed.
Lemma w_neg : forall ts, w_wf ts -> w_wf (map (fun t => (fst t, ax_not (snd t))) ts).
Proof.
  intros ts [H1 H2]. split.
  - unfold proper_ls in *. rewrite !map_map in *. exact H1.
  - intros t Ht. apply in_map_iff in Ht. destruct Ht as (u & <- & Hu). exact (H2 u Hu).
Qed.
Lemma coef_single : forall k l v, t_coef pv_eqd [(k, l)] v = k * cl_coef [l] v.
Proof. intros k l v. rewrite cl_one. cbn [t_coef]. unfold sgn. destruct (pv_eqd (ax_var l) v); [destruct (ax_neg l); lia|lia]. Qed.
Lemma wif_concrete : forall ts o v, w_wf ts -> v <= wtot ts -> ~ In (ax_var o) (map ax_var (map snd ts)) -> wif (wif_def ts o v) ts o v.
Proof.
  intros ts o v H Hv Ho. unfold wif, wif_def. split.
  - intros x. unfold lb_coef. cbn [lb_terms]. rewrite t_coef_app, t_coef_neg, coef_single. reflexivity.
  - apply w_degree. apply w_snoc; [apply w_neg; exact H|lia|]. rewrite map_map. cbn [snd].
    intros X. apply Ho. rewrite map_map in *. exact X.
Qed.
Lemma wonly_concrete : forall ts o v, w_wf ts -> 0 < v -> ~ In (ax_var o) (map ax_var (map snd ts)) -> wonly (wonly_def ts o v) ts o v.
Proof.
  intros ts o v H Hv Ho. unfold wonly, wonly_def. split.
  - intros x. unfold lb_coef. cbn [lb_terms]. rewrite t_coef_app, coef_single. reflexivity.
  - apply w_degree. apply w_snoc; [exact H|exact Hv|exact Ho].
Qed.

(** ** One output implies the other *)
Lemma imp_clausal : forall C D ts o1 o2 v1 v2 k, w_wf ts ->
  ~ In (ax_var o1) (map ax_var (map snd ts)) -> ~ In (ax_var o2) (map ax_var (map snd ts)) -> ax_var o1 <> ax_var o2 ->
  0 < v1 -> v1 <= v2 -> v2 <= wtot ts -> v2 - v1 + 1 <= k ->
  wif C ts o1 v1 -> wonly D ts o2 v2 ->
  clausal (lb_sat pv_eqd (lb_div pv_eqd k (lb_add C D))) [o1; ax_not o2].
Proof.
  intros C D ts o1 o2 v1 v2 k H Ho1 Ho2 Hne P1 P12 P2 Hk [C1 C2] [D1 D2].
  set (E := lb_add C D). set (m := wtot ts - v1 + 1) in *.
  assert (EC : forall x, lb_coef pv_eqd E x = m * cl_coef [o1] x + v2 * cl_coef [ax_not o2] x).
  { intros x. unfold E. rewrite lb_add_coef, C1, D1. lia. }
  assert (Ed : lb_degree pv_eqd E = v2 - v1 + 1).
  { destruct (nodup_both pv_eqd C D) as (vs & Hn & Vc & Vd). unfold E. rewrite (add_degree C D vs Hn Vc Vd), C2, D2.
    rewrite (vsum_ext vs _ (fun x => Z.abs (t_coef pv_eqd ts x))).
    - rewrite (w_abs ts vs H Hn).
      + unfold m. lia.
      + intros x Hx. apply Vd. apply lb_vars_support. rewrite D1.
        rewrite cl_one. destruct (pv_eqd (ax_var (ax_not o2)) x) as [e|e]; [exfalso; apply Ho2; cbn [ax_not ax_var] in e; rewrite e; exact Hx|].
        pose proof (t_in ts x H Hx). lia.
    - intros x _. rewrite C1, D1, !cl_one. cbn [ax_not ax_var]. unfold canc.
      destruct (pv_eqd (ax_var o1) x) as [<-|N1].
      + rewrite (t_out ts _ Ho1). destruct (pv_eqd (ax_var o2) (ax_var o1)) as [e|_]; [exfalso; apply Hne; symmetry; exact e|].
        unfold sgn. destruct (ax_neg o1); lia.
      + destruct (pv_eqd (ax_var o2) x) as [<-|N2]; [|lia]. rewrite (t_out ts _ Ho2). unfold sgn. cbn [ax_neg]. destruct (negb (ax_neg o2)); lia. }
  assert (Fd : lb_degree pv_eqd (lb_div pv_eqd k E) = 1) by (rewrite lb_div_degree, Ed; apply cdiv_unique; lia).
  split; [|rewrite lb_sat_degree; exact Fd].
  intros x. rewrite lb_sat_coef, Fd, lb_div_coef by lia. rewrite EC, !cl_one. cbn [ax_not ax_var].
  assert (Q : forall z, 0 < z -> sat_coef (Z.max 0 1) (div_coef k z) = 1).
  { intros z Hz. unfold sat_coef, div_coef. destruct (Z.leb_spec 0 z); [|lia]. pose proof (cdiv_spec z k ltac:(lia)) as X.
    assert (0 < cdiv z k) by nia. destruct (Z.leb_spec 0 (cdiv z k)); lia. }
  assert (Qn : forall z, z < 0 -> sat_coef (Z.max 0 1) (div_coef k z) = -1).
  { intros z Hz. unfold sat_coef, div_coef. destruct (Z.leb_spec 0 z); [lia|]. pose proof (cdiv_spec (- z) k ltac:(lia)) as X.
    assert (0 < cdiv (- z) k) by nia. destruct (Z.leb_spec 0 (- cdiv (- z) k)); lia. }
  pose proof (cl_snoc [o1] (ax_not o2) x) as S. cbn [app] in S. rewrite S.
  2: { intros [E0|[]]. apply Hne. cbn [ax_not ax_var] in E0. exact E0. }
  rewrite cl_one. cbn [ax_not ax_var].
  destruct (pv_eqd (ax_var o1) x) as [<-|N1].
  - destruct (pv_eqd (ax_var o2) (ax_var o1)) as [e|_]; [exfalso; apply Hne; symmetry; exact e|].
    unfold sgn. destruct (ax_neg o1); [apply Qn; unfold m; lia|apply Q; unfold m; lia].
  - destruct (pv_eqd (ax_var o2) x) as [<-|N2].
    + fold (ax_not o2). unfold sgn. destruct (ax_neg (ax_not o2)); [apply Qn; lia|apply Q; lia].
    + unfold sat_coef, div_coef. rewrite !Z.mul_0_r. change (0 + 0) with 0. cbn [Z.leb]. rewrite cdiv_0 by lia. reflexivity.
Qed.

(** ** Lines derived by propagation *)
(** the literals [ms] follow from the negated clause one by one, then there is a conflict *)
Lemma rup_two : forall (cs : list pconstr) ls ms,
  (forall m, In m ms -> exists c, In c cs /\ forall a, (forall l, In l ls -> ax_true a l = false) -> lb_holds a c -> ax_true a m = true) ->
  (exists c, In c cs /\ forall a, (forall l, In l ls -> ax_true a l = false) -> (forall m, In m ms -> ax_true a m = true) -> ~ lb_holds a c) ->
  rup cs (lb_clause ls).
Proof.
  intros cs ls ms Hm (c & Hc & Hx). unfold rup. apply (up_many _ (map ax_not ls)).
  - intros l Hl. exists (lb_negate (lb_clause ls)). split; [left; reflexivity|]. apply in_map_iff in Hl. destruct Hl as (x & <- & Hl).
    intros a _ Ha. apply lb_negate_holds in Ha. rewrite lb_clause_holds in Ha. rewrite ax_not_true.
    destruct (ax_true a x) eqn:E; [|reflexivity]. exfalso. apply Ha. exists x. split; assumption.
  - intros s Hs.
    assert (F : forall a, ax_all a s -> forall l, In l ls -> ax_true a l = false).
    { intros a Ha l Hl. specialize (Ha (ax_not l)). rewrite ax_not_true in Ha. apply negb_true_iff. apply Ha. apply Hs. left.
      apply in_map. exact Hl. }
    apply (up_many _ ms).
    + intros m H. destruct (Hm m H) as (d & Hd & Hp). exists d. split; [right; exact Hd|]. intros a Ha Hh. exact (Hp a (F a Ha) Hh).
    + intros s' Hs'. apply (up_conflict _ _ c); [right; exact Hc|]. intros a Ha. apply Hx.
      * apply F. intros l Hl. apply Ha. apply Hs'. right. exact Hl.
      * intros m H. apply Ha. apply Hs'. left. exact H.
Qed.
Lemma opt_all_some : forall {A} (l : list A), opt_all (map Some l) = Some l.
Proof. induction l as [|x l IH]; [reflexivity|]. cbn [map opt_all]. rewrite IH. reflexivity. Qed.
Lemma hints_some : forall k ids cs, ids_ok k -> Forall2 (fun i c => In (i, c) (k_all k)) ids cs ->
  opt_all (map (id_get (k_all k) (k_next k)) (map CAbs ids)) = Some cs.
Proof.
  intros k ids cs Hi H. induction H as [|i c ids cs Hc H IH]; [reflexivity|]. cbn [map opt_all id_get].
  rewrite (k_get k i c Hi Hc), IH. reflexivity.
Qed.

(** ** The log grows, constraints present before stay *)
Record frame (k0 : chk) (p p' : pst) : Prop := mkFrame {
  fr_wok : wok k0 p';
  fr_old : forall e, In e (k_all (kof k0 p)) -> In e (k_all (kof k0 p'));
  fr_new : forall e, In e (k_all (kof k0 p')) -> In e (k_all (kof k0 p)) \/ (ps_next p <= fst e)%nat;
  fr_core : k_core (kof k0 p') = k_core (kof k0 p);
  fr_order : k_order (kof k0 p') = k_order (kof k0 p);
  fr_excl : k_excl (kof k0 p') = k_excl (kof k0 p);
  fr_nextvar : ps_nextvar p' = ps_nextvar p;
  fr_next : (ps_next p <= ps_next p')%nat;
  fr_vmap : ps_vmap p' = ps_vmap p;
  fr_bounds : ps_bounds p' = ps_bounds p;
  fr_sound : forall a, proof_holds a (kof k0 p) -> proof_holds a (kof k0 p')
}.
Lemma frame_refl : forall k0 p, wok k0 p -> frame k0 p p.
Proof. intros k0 p W. constructor; auto. Qed.
Lemma frame_trans : forall k0 p q r, frame k0 p q -> frame k0 q r -> frame k0 p r.
Proof.
  intros k0 p q r [a1 a2 a3 a4 a5 a6 a7 a8 a9 a10 a11] [b1 b2 b3 b4 b5 b6 b7 b8 b9 b10 b11].
  constructor; auto; try congruence; [|lia]. intros e He. destruct (b3 e He) as [X|X]; [exact (a3 e X)|right; lia].
Qed.
(** the same log with more clauses handed to the solver *)
Lemma frame_cert : forall k0 p q c id, frame k0 p q -> frame k0 p (add_cert c id q).
Proof.
  intros k0 p q c id [a1 a2 a3 a4 a5 a6 a7 a8 a9 a10 a11]. constructor; try assumption.
  destruct a1 as [w1 w2 w3 w4]. constructor; assumption.
Qed.
Lemma frame_der : forall k0 p q s c, frame k0 p q -> step_valid (kof k0 q) s -> step_next (kof k0 q) s = add_der (kof k0 q) c ->
  (forall n, In (PVp n) (cvars c) -> (n < ps_nextvar q)%nat) ->
  (forall a, proof_holds a (kof k0 q) -> lb_holds a c) ->
  frame k0 p (snd (wr_id s q)) /\ In (ps_next q, c) (k_all (kof k0 (snd (wr_id s q)))) /\
  (forall e, In e (k_all (kof k0 q)) -> In e (k_all (kof k0 (snd (wr_id s q))))).
Proof.
  intros k0 p q s c F Hv Hs Hf Hc. pose proof (fr_wok _ _ _ F) as Wq.
  destruct (wok_der k0 q s c Wq Hv Hs Hf) as (W & I & M). split; [|split; [exact I|exact M]].
  destruct F as [a1 a2 a3 a4 a5 a6 a7 a8 a9 a10 a11].
  assert (K : kof k0 (snd (wr_id s q)) = add_der (kof k0 q) c) by (rewrite kof_wr_id; exact Hs).
  constructor; try assumption.
  - intros e He. apply M. exact (a2 e He).
  - intros e He. rewrite K in He. apply in_add_der in He. destruct He as [->|He]; [|exact (a3 e He)].
    right. cbn [fst]. rewrite (wk_next _ _ Wq). exact a8.
  - rewrite K. exact a4.
  - rewrite K. exact a5.
  - rewrite K. exact a6.
  - cbn [snd wr_id ps_next]. lia.
  - intros a Ha e He. rewrite K in He. apply in_add_der in He. destruct He as [->|He]; [exact (Hc a (a11 a Ha))|exact (a11 a Ha e He)].
Qed.
Lemma frame_pol : forall k0 p q pl C, frame k0 p q -> pol_eval pv_eqd (kget (kof k0 q)) pl = Some C ->
  frame k0 p (snd (wr_id (SPol pl) q)) /\ In (ps_next q, C) (k_all (kof k0 (snd (wr_id (SPol pl) q)))) /\
  (forall e, In e (k_all (kof k0 q)) -> In e (k_all (kof k0 (snd (wr_id (SPol pl) q))))).
Proof.
  intros k0 p q pl C F E. pose proof (fr_wok _ _ _ F) as W.
  apply (frame_der k0 p q _ C F).
  - cbn [step_valid]. unfold kget in E. rewrite E. discriminate.
  - cbn [step_next]. unfold kget in E. rewrite E. reflexivity.
  - intros n Hn. destruct (pol_vars _ _ _ _ E Hn) as (i & d & Ed & Hd). destruct (id_get_in _ _ _ _ Ed) as (j & Hj).
    exact (wk_fresh _ _ W (j, d) n Hj Hd).
  - intros a Ha. eapply (pol_sound pv_eqd); [|exact E]. intros i d Hi. destruct (id_get_in _ _ _ _ Hi) as (j & Hj). exact (Ha _ Hj).
Qed.
Lemma frame_rup : forall k0 p q c ids cs, frame k0 p q -> Forall2 (fun i c => In (i, c) (k_all (kof k0 q))) ids cs -> rup cs c ->
  (forall n, In (PVp n) (cvars c) -> (n < ps_nextvar q)%nat) ->
  frame k0 p (snd (wr_id (SRup c (map CAbs ids)) q)) /\ In (ps_next q, c) (k_all (kof k0 (snd (wr_id (SRup c (map CAbs ids)) q)))) /\
  (forall e, In e (k_all (kof k0 q)) -> In e (k_all (kof k0 (snd (wr_id (SRup c (map CAbs ids)) q))))).
Proof.
  intros k0 p q c ids cs F H2 Hr Hf. pose proof (fr_wok _ _ _ F) as W.
  apply (frame_der k0 p q _ c F).
  - cbn [step_valid]. exists cs. split; [apply hints_some; [exact (wk_ids _ _ W)|exact H2]|exact Hr].
  - reflexivity.
  - exact Hf.
  - intros a Ha. apply (rup_sound cs c Hr a). intros d Hd.
    clear -H2 Ha Hd. induction H2 as [|i c0 ids cs Hc H IH]; [destruct Hd|]. destruct Hd as [<-|Hd]; [exact (Ha _ Hc)|exact (IH Hd)].
Qed.
Lemma rm_ids_none : forall ns es, (forall e, In e es -> ~ In (fst e) ns) -> rm_ids ns es = es.
Proof.
  intros ns es H. unfold rm_ids. apply filter_all. intros e He. apply negb_true_iff. destruct (existsb (fun n => (fst e =? n)%nat) ns) eqn:E; [|reflexivity].
  exfalso. apply existsb_exists in E. destruct E as (n & Hn & E). apply Nat.eqb_eq in E. apply (H e He). rewrite E. exact Hn.
Qed.
(** deleting what has been added since *)
Lemma frame_del : forall k0 p q ids, wok k0 p -> frame k0 p q -> (forall i, In i ids -> (ps_next p <= i)%nat) ->
  frame k0 p (wr (SDel (map CAbs ids) []) q) /\
  (forall i C, In (i, C) (k_all (kof k0 q)) -> ~ In i ids -> In (i, C) (k_all (kof k0 (wr (SDel (map CAbs ids) []) q)))).
Proof.
  intros k0 p q ids Wp F Hi. destruct F as [a1 a2 a3 a4 a5 a6 a7 a8 a9 a10 a11].
  assert (Lo : forall e, In e (k_all (kof k0 p)) -> ~ In (fst e) ids).
  { intros e He X. specialize (Hi _ X). destruct (wk_ids _ _ Wp) as [_ B]. specialize (B e He). rewrite (wk_next _ _ Wp) in B. lia. }
  assert (Co : forall e, In e (k_core (kof k0 q)) -> ~ In (fst e) ids).
  { intros e He. rewrite a4 in He. apply Lo. apply in_k_all. left. exact He. }
  destruct (wok_del k0 q ids a1) as (W & A & _).
  { intros i C X Y. exact (Co (i, C) Y X). }
  split.
  - constructor; try assumption.
    + intros [i C] He. apply A. split; [exact (a2 _ He)|exact (Lo _ He)].
    + intros [i C] He. apply A in He. exact (a3 (i, C) (proj1 He)).
    + rewrite kof_wr. cbn [step_next k_core]. rewrite abs_map, rm_ids_none; [exact a4|exact Co].
    + rewrite kof_wr. exact a5.
    + rewrite kof_wr. exact a6.
    + intros a Ha [i C] He. apply A in He. exact (a11 a Ha _ (proj1 He)).
  - intros i C H Hn. apply A. split; assumption.
Qed.

Lemma clause_vars : forall (c : clause) n, ~ In (PVp n) (cvars (clause_pb c)).
Proof.
  intros c n H. unfold cvars, clause_pb, lb_clause in H. cbn [lb_terms] in H. rewrite !map_map in H. apply in_map_iff in H.
  destruct H as (l & E & _). discriminate.
Qed.
Lemma lb_clause_vars : forall (ls : list (ax pv)) v, In v (cvars (lb_clause ls)) <-> In v (map ax_var ls).
Proof. intros ls v. unfold cvars, lb_clause. cbn [lb_terms]. rewrite map_map. reflexivity. Qed.
Lemma axiom_lnot : forall l, axiom (lnot l) = ax_not (axiom l).
Proof. intros [v n]. reflexivity. Qed.
Lemma lnot_lnot : forall l, lnot (lnot l) = l.
Proof. intros [v n]. unfold lnot. cbn. rewrite negb_involutive. reflexivity. Qed.

(** the implication between two outputs is derived *)
Lemma imp_line : forall k0 p q e ts v1 v2 o1 o2 fi oi d1 d2 k, frame k0 p q -> w_wf ts ->
  out_at (kof k0 q) e ts v1 o1 fi d1 -> out_at (kof k0 q) e ts v2 o2 d2 oi -> lvar o1 <> lvar o2 -> (v1 <= v2)%nat ->
  Z.of_nat v2 - Z.of_nat v1 + 1 <= k ->
  let q' := snd (wr_id (SPol (imp_pol fi oi k)) q) in
  exists C, clausal C [axiom o1; ax_not (axiom o2)] /\ frame k0 p q' /\ In (ps_next q, C) (k_all (kof k0 q')) /\
    (forall e, In e (k_all (kof k0 q)) -> In e (k_all (kof k0 q'))).
Proof.
  intros k0 p q e ts v1 v2 o1 o2 fi oi d1 d2 k F Hw O1 O2 Hne Hv Hk q'.
  destruct O1 as [_ P1 T1 N1 (C & IC & HC) _]. destruct O2 as [_ P2 T2 N2 _ (D & ID & HD)].
  pose proof (fr_wok _ _ _ F) as W.
  eexists. split.
  - apply (imp_clausal C D ts (axiom o1) (axiom o2) (Z.of_nat v1 - Z.of_nat (pe_offset e)) (Z.of_nat v2 - Z.of_nat (pe_offset e)) k); try assumption; try lia.
    cbn [axiom ax_var]. congruence.
  - apply (frame_pol k0 p q (imp_pol fi oi k) _ F). unfold imp_pol. cbn [pol_eval kget id_get].
    unfold kget. cbn [id_get]. rewrite (k_get _ _ _ (wk_ids _ _ W) IC), (k_get _ _ _ (wk_ids _ _ W) ID). cbn [option_map].
    destruct (Z.ltb_spec 0 k); [reflexivity|lia].
Qed.
Lemma two_nontaut : forall l1 l2 : ax pv, ax_var l1 <> ax_var l2 -> nontaut [l1; l2].
Proof.
  intros l1 l2 H l Hl Hn. destruct Hl as [<-|[<-|[]]]; destruct Hn as [E|[E|[]]].
  - exact (ax_not_neq _ (eq_sym E)).
  - apply H. rewrite E. reflexivity.
  - apply H. rewrite E. reflexivity.
  - exact (ax_not_neq _ (eq_sym E)).
Qed.
Lemma imp_holds : forall (a : pv -> bool) C l1 l2, ax_var l1 <> ax_var l2 -> clausal C [l1; ax_not l2] -> lb_holds a C ->
  ax_true a l2 = true -> ax_true a l1 = true.
Proof.
  intros a C l1 l2 Hne HC Ha H. rewrite (clausal_holds a C [l1; ax_not l2]) in Ha; [|apply two_nontaut; exact Hne|exact HC].
  destruct Ha as (l & [<-|[<-|[]]] & Hl); [exact Hl|]. rewrite ax_not_true, H in Hl. discriminate.
Qed.

(** outputs stay in the proof *)
Lemma out_at_mono : forall k k' e ts v o fi oi, (forall x, In x (k_all k) -> In x (k_all k')) -> out_at k e ts v o fi oi -> out_at k' e ts v o fi oi.
Proof.
  intros k k' e ts v o fi oi H [h1 h2 h3 h4 (C & IC & HC) (D & ID & HD)]. constructor; try assumption.
  - exists C. split; [exact (H _ IC)|exact HC].
  - exists D. split; [exact (H _ ID)|exact HD].
Qed.
Lemma has_out_mono : forall k k' e ts v o, (forall x, In x (k_all k) -> In x (k_all k')) -> has_out k e ts v o -> has_out k' e ts v o.
Proof. intros k k' e ts v o H (fi & oi & X). exists fi, oi. exact (out_at_mono _ _ _ _ _ _ _ _ H X). Qed.
Lemma outs_after_mono : forall k k' e ts as_ val, (forall x, In x (k_all k) -> In x (k_all k')) -> outs_after k e ts val as_ -> outs_after k' e ts val as_.
Proof.
  intros k k' e ts as_. induction as_ as [|a r IH]; intros val H X; [exact Logic.I|]. cbn [outs_after] in *. destruct X as (X1 & X2 & X3).
  split; [exact X1|]. split; [exact (has_out_mono _ _ _ _ _ _ H X2)|exact (IH _ H X3)].
Qed.

(** ** The loop over the assumptions, no buffered inputs *)
Definition regs (reif : lit) (as_ : list lit) (ids : list nat) : list (clause * nat) := combine (map (lit_impl_lit reif) as_) ids.
Lemma reif_loop_ok : forall e value fi oi1 reif ifd ts o1 k0, w_wf ts -> forall as_ val p,
  wok k0 p -> out_at (kof k0 p) e ts value o1 fi oi1 -> outs_after (kof k0 p) e ts val as_ -> (value <= val)%nat ->
  In (ifd, clause_pb (lit_impl_lit reif (lnot o1))) (k_all (kof k0 p)) ->
  (forall a, In a as_ -> lvar a <> lvar o1) ->
  exists p' ids, reif_loop e value fi reif ifd val as_ p = Some p' /\ frame k0 p p' /\ length ids = length as_ /\
    ps_reg p' = ps_reg p ++ regs reif as_ ids /\
    forall c id, In (c, id) (regs reif as_ ids) -> In (id, clause_pb c) (k_all (kof k0 p')).
Proof.
  intros e value fi oi1 reif ifd ts o1 k0 Hw as_. induction as_ as [|a r IH]; intros val p W O1 Ho Hval Hifd Hd.
  { exists p, []. split; [reflexivity|]. split; [apply frame_refl; exact W|]. split; [reflexivity|]. split; [symmetry; apply app_nil_r|]. intros c id []. }
  cbn [outs_after] in Ho. destruct Ho as (Hlt & (fi2 & oi2 & O2) & Ho).
  set (val' := pe_next_higher e val) in *. set (o2 := lnot a) in *.
  assert (Hne : lvar o1 <> lvar o2) by (unfold o2; cbn [lnot lvar]; intros X; apply (Hd a (or_introl eq_refl)); symmetry; exact X).
  destruct (imp_line k0 p p e ts value val' o1 o2 fi oi2 oi1 fi2 (Z.of_nat val' - Z.of_nat value + 1) (frame_refl k0 p W) Hw O1 O2 Hne ltac:(lia) ltac:(lia)) as (C & HC & F1 & I1 & M1).
  cbv zeta in *. set (p1 := snd (wr_id (SPol (imp_pol fi oi2 (Z.of_nat val' - Z.of_nat value + 1))) p)) in *.
  set (cl := lit_impl_lit reif a).
  destruct (frame_rup k0 p p1 (clause_pb cl) [ps_next p; ifd] [C; clause_pb (lit_impl_lit reif (lnot o1))] F1) as (F2 & I2 & M2).
  { constructor; [exact I1|]. constructor; [exact (M1 _ Hifd)|constructor]. }
  { unfold clause_pb at 2. apply (rup_two _ (map axiom cl) [axiom o1]).
    - intros m [<-|[]]. exists C. split; [left; reflexivity|]. intros x Hx HCx.
      apply (imp_holds x C (axiom o1) (axiom o2)); [cbn [axiom ax_var]; congruence|exact HC|exact HCx|].
      unfold o2. rewrite axiom_lnot, ax_not_true. rewrite Hx; [reflexivity|]. right. left. reflexivity.
    - exists (clause_pb (lit_impl_lit reif (lnot o1))). split; [right; left; reflexivity|]. intros x Hx Hm Hh.
      unfold clause_pb in Hh. rewrite lb_clause_holds in Hh. destruct Hh as (l & [<-|[<-|[]]] & Hl).
      + rewrite Hx in Hl; [discriminate|]. left. reflexivity.
      + rewrite axiom_lnot, ax_not_true, (Hm (axiom o1) (or_introl eq_refl)) in Hl. discriminate. }
  { intros n Hn. exfalso. exact (clause_vars _ _ Hn). }
  change (map CAbs [ps_next p; ifd]) with [CAbs (ps_next p); CAbs ifd] in F2, I2, M2.
  set (p2 := snd (wr_id (SRup (clause_pb cl) [CAbs (ps_next p); CAbs ifd]) p1)) in *.
  assert (N1 : ps_next p1 = S (ps_next p)) by reflexivity.
  pose proof (frame_cert k0 p p2 cl (ps_next p1) F2) as F3. set (p3 := add_cert cl (ps_next p1) p2) in *.
  destruct (frame_del k0 p p3 [ps_next p] W F3) as (F4 & M4).
  { intros i [<-|[]]. lia. }
  change (map CAbs [ps_next p]) with [CAbs (ps_next p)] in F4, M4.
  set (p4 := wr (SDel [CAbs (ps_next p)] []) p3) in *.
  destruct (IH val' p4 (fr_wok _ _ _ F4)) as (p5 & ids & E5 & F5 & L5 & R5 & H5).
  - exact (out_at_mono _ _ _ _ _ _ _ _ (fr_old _ _ _ F4) O1).
  - exact (outs_after_mono _ _ _ _ _ _ (fr_old _ _ _ F4) Ho).
  - lia.
  - exact (fr_old _ _ _ F4 _ Hifd).
  - intros b Hb. apply Hd. right. exact Hb.
  - exists p5, (ps_next p1 :: ids). split; [|split; [exact (frame_trans _ _ _ _ F4 F5)|]].
    + cbn [reif_loop]. fold val'. destruct O2 as [D2 _ _ _ _ _]. rewrite D2. unfold o2. rewrite lnot_lnot, lit_eqb_refl.
      unfold wr_id. exact E5.
    + split; [cbn [length]; rewrite L5; reflexivity|]. split.
      * rewrite R5. cbn [p4 wr p3 add_cert ps_reg p2 wr_id snd p1]. unfold regs. cbn [map combine]. rewrite <- app_assoc. reflexivity.
      * intros c id Hc. unfold regs in Hc. cbn [map combine] in Hc. destruct Hc as [Hc|Hc]; [|exact (H5 c id Hc)].
        injection Hc as <- <-. apply (fr_old _ _ _ F5). apply M4.
        -- exact I2.
        -- intros [X|[]]. change (ps_next p = S (ps_next p)) in X. lia.
Qed.
