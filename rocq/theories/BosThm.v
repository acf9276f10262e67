(** * The proof lines of one iteration of BiOptSat *)
From Coq Require Import List Arith ZArith Lia Bool.
From Verif Require Import Base BaseLemmas Sem Ext MTypes MPMinimal MPrepro VeriPB VeriThm MProofs ProofThm ProofRun ProofCut MTracer TracerThm ReformSpec ReformThm ReformRun MProofAlg ReifSpec ReifThm ReifRun LinsuCert BosSpec.
Import ListNotations.
Local Open Scope Z_scope.

(** ** Sums of clauses *)
Lemma cl_cons : forall x ls v, ~ In (ax_var x) (map ax_var ls) -> cl_coef (x :: ls) v = cl_coef [x] v + cl_coef ls v.
Proof.
  intros x ls v H. rewrite (cl_coef_ext (x :: ls) (ls ++ [x])).
  - rewrite cl_snoc by exact H. rewrite cl_one. destruct (pv_eqd (ax_var x) v) as [<-|N]; [rewrite (cl_out ls _ H)|]; lia.
  - intros y. rewrite in_app_iff. cbn [In]. tauto.
Qed.
Lemma cl_not : forall x v, cl_coef [ax_not x] v = - cl_coef [x] v.
Proof. intros x v. rewrite !cl_one. cbn [ax_not ax_var]. destruct (pv_eqd (ax_var x) v); [|reflexivity]. unfold sgn. cbn [ax_not ax_neg]. destruct (ax_neg x); reflexivity. Qed.
Lemma cl_self : forall x, cl_coef [x] (ax_var x) = sgn x.
Proof. intros x. rewrite cl_one. destruct (pv_eqd (ax_var x) (ax_var x)); [reflexivity|contradiction]. Qed.
Lemma cl_other : forall x v, v <> ax_var x -> cl_coef [x] v = 0.
Proof. intros x v H. rewrite cl_one. destruct (pv_eqd (ax_var x) v) as [e|_]; [exfalso; apply H; symmetry; exact e|reflexivity]. Qed.

(** the literal [o] with coefficient [m], the literals [rest] with coefficient 1 *)
Definition wclause (C : pconstr) (m : Z) (o : ax pv) (rest : list (ax pv)) : Prop :=
  (forall v, lb_coef pv_eqd C v = m * cl_coef [o] v + cl_coef rest v) /\ lb_degree pv_eqd C = 1.
Lemma wclause_add : forall C D m o x rest, 0 <= m -> proper_ls (o :: x :: rest) -> wclause C m o (x :: rest) -> clausal D [o; ax_not x] ->
  wclause (lb_add C D) (m + 1) o rest.
Proof.
  intros C D m o x rest Hm P [C1 C2] [D1 D2]. unfold proper_ls in P. cbn [map] in P. apply NoDup_cons_iff in P. destruct P as [P1 P2].
  apply NoDup_cons_iff in P2. destruct P2 as [P2 P3].
  assert (Nox : ax_var o <> ax_var x) by (intros E; apply P1; left; symmetry; exact E).
  assert (EC : forall v, lb_coef pv_eqd C v = m * cl_coef [o] v + cl_coef [x] v + cl_coef rest v).
  { intros v. rewrite C1, (cl_cons x rest v P2). lia. }
  assert (ED : forall v, lb_coef pv_eqd D v = cl_coef [o] v - cl_coef [x] v).
  { intros v. rewrite D1, (cl_cons o [ax_not x] v), cl_not; [lia|]. intros [E|[]]. apply Nox. symmetry. exact E. }
  split; [intros v; rewrite lb_add_coef, EC, ED; lia|].
  destruct (nodup_both pv_eqd C D) as (vs & Hn & HC & HD). rewrite (add_degree C D vs Hn HC HD), C2, D2.
  rewrite (vsum_single vs (ax_var x)); [|exact Hn| |].
  - rewrite EC, ED, cl_self, (cl_other o (ax_var x)), (cl_out rest) by (try exact P2; congruence). unfold canc, sgn. destruct (ax_neg x); lia.
  - apply HD. apply lb_vars_support. rewrite ED, cl_self, cl_other by congruence. unfold sgn. destruct (ax_neg x); lia.
  - intros v _ Nv. rewrite EC, ED, (cl_other x v Nv). destruct (pv_eqd v (ax_var o)) as [->|No].
    + rewrite cl_self, (cl_out rest); [|intros X; apply P1; right; exact X]. unfold canc, sgn. destruct (ax_neg o); lia.
    + rewrite (cl_other o v No). unfold canc. lia.
Qed.
Lemma wclause_sat : forall C m o rest, 1 <= m -> proper_ls (o :: rest) -> wclause C m o rest -> clausal (lb_sat pv_eqd C) (o :: rest).
Proof.
  intros C m o rest Hm P [C1 C2]. unfold proper_ls in P. cbn [map] in P. apply NoDup_cons_iff in P. destruct P as [P1 P2].
  split; [|rewrite lb_sat_degree; exact C2]. intros v. rewrite lb_sat_coef, C2, C1, (cl_cons o rest v P1). change (Z.max 0 1) with 1.
  destruct (pv_eqd v (ax_var o)) as [->|No].
  - rewrite cl_self, (cl_out rest _ P1). unfold sat_coef, sgn. destruct (ax_neg o); destruct (Z.leb_spec 0 (m * -1 + 0)); destruct (Z.leb_spec 0 (m * 1 + 0)); lia.
  - rewrite (cl_other o v No). unfold sat_coef. destruct (cl_coef_range rest v) as [E|[E|E]]; rewrite E; destruct (Z.leb_spec 0 (m * 0 + 1)), (Z.leb_spec 0 (m * 0 + -1)), (Z.leb_spec 0 (m * 0 + 0)); lia.
Qed.
(** a unit clause removes a literal *)
Lemma add_unit : forall C D x ds, proper_ls (x :: ds) -> clausal C [x] -> clausal D (ax_not x :: ds) -> clausal (lb_add C D) ds.
Proof.
  intros C D x ds P [C1 C2] [D1 D2]. unfold proper_ls in P. cbn [map] in P. apply NoDup_cons_iff in P. destruct P as [P1 P2].
  assert (ED : forall v, lb_coef pv_eqd D v = - cl_coef [x] v + cl_coef ds v) by (intros v; rewrite D1, (cl_cons (ax_not x) ds v P1), cl_not; reflexivity).
  split; [intros v; rewrite lb_add_coef, C1, ED; lia|].
  destruct (nodup_both pv_eqd C D) as (vs & Hn & HC & HD). rewrite (add_degree C D vs Hn HC HD), C2, D2.
  rewrite (vsum_single vs (ax_var x)); [|exact Hn| |].
  - rewrite C1, ED, cl_self, (cl_out ds _ P1). unfold canc, sgn. destruct (ax_neg x); lia.
  - apply HC. apply lb_vars_support. rewrite C1, cl_self. unfold sgn. destruct (ax_neg x); lia.
  - intros v _ Nv. rewrite C1, ED, (cl_other x v Nv). unfold canc. lia.
Qed.
Lemma add_comm_clausal : forall C D r, clausal (lb_add C D) r -> clausal (lb_add D C) r.
Proof.
  intros C D r [H1 H2]. split; [intros v; rewrite lb_add_coef, <- H1, lb_add_coef; lia|]. rewrite <- H2.
  destruct (nodup_both pv_eqd C D) as (vs & Hn & HC & HD). rewrite (add_degree C D vs Hn HC HD), (add_degree D C vs Hn HD HC).
  rewrite (vsum_ext vs (fun v => canc (lb_coef pv_eqd D v) (lb_coef pv_eqd C v)) (fun v => canc (lb_coef pv_eqd C v) (lb_coef pv_eqd D v))); [lia|].
  intros v _. unfold canc. rewrite (Z.add_comm (lb_coef pv_eqd D v)). lia.
Qed.

(** the sum of two constraints of the proof *)
Lemma sum_line : forall k0 p q i j C D, frame k0 p q -> In (i, C) (k_all (kof k0 q)) -> In (j, D) (k_all (kof k0 q)) ->
  let q' := snd (wr_id (SPol (PAdd (PC (CAbs i)) (PC (CAbs j)))) q) in
  frame k0 p q' /\ In (ps_next q, lb_add C D) (k_all (kof k0 q')) /\ (forall e, In e (k_all (kof k0 q)) -> In e (k_all (kof k0 q'))).
Proof.
  intros k0 p q i j C D F IC ID q'. pose proof (wk_ids _ _ (fr_wok _ _ _ F)) as Wi. apply (frame_pol k0 p q _ _ F).
  cbn [pol_eval]. unfold kget. cbn [id_get]. rewrite (k_get _ _ _ Wi IC), (k_get _ _ _ Wi ID). reflexivity.
Qed.
Lemma derived_mono : forall k k' i c, (forall x, In x (k_all k) -> In x (k_all k')) -> derived k i c -> derived k' i c.
Proof. intros k k' i c H (C & X & Y). exists C. split; [exact (H _ X)|exact Y]. Qed.

(** ** The cut that is added *)
Lemma bos_cut_ok : forall k0 p e0 inc_cost inc_lb inc_lb_id b pmin_cut x ds, wok k0 p -> proper_ls (x :: ds) ->
  inc_bound (kof k0 p) e0 inc_cost inc_lb inc_lb_id b x -> pmin_says (kof k0 p) e0 inc_cost pmin_cut x ds ->
  exists cut p', bos_cut e0 inc_cost inc_lb inc_lb_id (bs_cut b) (bs_lb b) pmin_cut p = Some (cut, p') /\ frame k0 p p' /\ ps_reg p' = ps_reg p /\
    derived (kof k0 p') cut ds.
Proof.
  intros k0 p e0 inc_cost inc_lb inc_lb_id b pmin_cut x ds W P Hb Hc. unfold bos_cut, pmin_says in *.
  destruct (Nat.leb_spec inc_cost (pe_offset e0)) as [Hle|Hlt].
  { exists pmin_cut, p. split; [reflexivity|]. split; [apply frame_refl; exact W|]. split; [reflexivity|exact Hc]. }
  destruct (Hb Hlt) as [H1 H2]. cbn [app] in Hc.
  assert (Step : forall q lb, frame k0 p q -> ps_reg q = ps_reg p -> derived (kof k0 q) lb [x] ->
    exists cut p', (let '(id, q') := wr_id (SPol (PAdd (PC (CAbs lb)) (PC (CAbs pmin_cut)))) q in Some (id, q')) = Some (cut, p') /\
      frame k0 p p' /\ ps_reg p' = ps_reg p /\ derived (kof k0 p') cut ds).
  { intros q lb F R (C & IC & HC). destruct Hc as (D & ID & HD).
    destruct (sum_line k0 p q lb pmin_cut C D F IC (fr_old _ _ _ F _ ID)) as (F1 & I1 & M1). cbv zeta in *.
    eexists. eexists. split; [reflexivity|]. split; [exact F1|]. split; [exact R|]. eexists. split; [exact I1|].
    apply (add_unit C D x ds P HC HD). }
  destruct (Nat.eqb_spec inc_cost inc_lb) as [He|Hne].
  - destruct (H1 He) as (c & l & d & -> & -> & (C & IC & HC) & (D & ID & HD) & Nxd).
    destruct (sum_line k0 p p c l C D (frame_refl k0 p W) IC ID) as (F1 & I1 & M1). cbv zeta in *.
    destruct (Step (snd (wr_id (SPol (PAdd (PC (CAbs c)) (PC (CAbs l)))) p)) (ps_next p) F1 eq_refl) as (cut & p' & E & R).
    { eexists. split; [exact I1|]. apply (add_unit C D (ax_not d) [x]).
      - repeat constructor; cbn [map In ax_not ax_var]; [intros [X|[]]; exact (Nxd X)|intros []].
      - exact HC.
      - rewrite ax_not_not. apply (clausal_ext D [x; d]); [intros y; cbn [In]; tauto|exact HD]. }
    exists cut, p'. split; [exact E|exact R].
  - destruct (H2 Hne) as (i & -> & Di). destruct (Step p i (frame_refl k0 p W) eq_refl Di) as (cut & p' & E & R).
    exists cut, p'. split; [exact E|exact R].
Qed.

(** ** The bound on the decreasing objective in terms of one output of the increasing one *)
Lemma bos_imps_ok : forall e ts fv first fi oi inc k0, w_wf ts -> (inc <= fv)%nat -> forall outs val p,
  wok k0 p -> out_at (kof k0 p) e ts fv first fi oi -> chain (kof k0 p) e ts val outs -> (outs <> [] -> (fv <= val)%nat) ->
  ~ In (lvar first) (map lvar outs) ->
  exists imps p', bos_imps e fi inc (map lnot outs) val p = Some (imps, p') /\ frame k0 p p' /\ ps_reg p' = ps_reg p /\
    imps_ok (kof k0 p') first imps outs /\ forall i, In i imps -> (ps_next p <= i)%nat.
Proof.
  intros e ts fv first fi oi inc k0 Hw Hinc outs. induction outs as [|l outs IH]; intros val p W O1 Hc Hv Hn.
  { exists [], p. split; [reflexivity|]. split; [apply frame_refl; exact W|]. split; [reflexivity|]. split; [constructor|]. intros i []. }
  destruct Hc as ((fi2 & oi2 & O2) & Hnx & Hc). specialize (Hv ltac:(discriminate)).
  assert (Hne : lvar first <> lvar l) by (intros X; apply Hn; left; symmetry; exact X).
  destruct (imp_line k0 p p e ts fv val first l fi oi2 oi fi2 (Z.of_nat val - Z.of_nat inc + 2) (frame_refl k0 p W) Hw O1 O2 Hne ltac:(lia) ltac:(lia)) as (C & HC & F1 & I1 & M1).
  cbv zeta in *. set (p1 := snd (wr_id (SPol (imp_pol fi oi2 (Z.of_nat val - Z.of_nat inc + 2))) p)) in *.
  destruct (IH (pe_next_higher e val) p1 (fr_wok _ _ _ F1)) as (imps & p' & E' & F' & R' & H' & L').
  - exact (out_at_mono _ _ _ _ _ _ _ _ M1 O1).
  - exact (chain_mono _ _ _ _ _ _ M1 Hc).
  - intros X. specialize (Hnx X). lia.
  - intros X. apply Hn. right. exact X.
  - exists (ps_next p :: imps), p'. split.
    + cbn [map bos_imps]. rewrite (oa_details _ _ _ _ _ _ _ O2), lit_eqb_refl. unfold wr_id.
      change (mkPst (S (ps_next p)) (ps_nextvar p) (ps_log p ++ [SPol (imp_pol fi oi2 (Z.of_nat val - Z.of_nat inc + 2))]) (ps_vmap p) (ps_bounds p) (ps_reg p)) with p1.
      rewrite E'. reflexivity.
    + split; [exact (frame_trans _ _ _ _ F1 F')|]. split; [rewrite R'; reflexivity|]. split.
      * constructor; [|exact H']. exists C. split; [exact (fr_old _ _ _ F' _ I1)|exact HC].
      * intros i [<-|Hi]; [lia|]. pose proof (L' i Hi) as X. pose proof (fr_next _ _ _ F1). lia.
Qed.
(** the sum of the bound and the implications *)
Lemma fold_eval : forall k first imps outs e C m rest, ids_ok k -> imps_ok k first imps outs ->
  proper_ls (axiom first :: map axiom outs ++ rest) -> 0 <= m ->
  pol_eval pv_eqd (kget k) e = Some C -> wclause C m (axiom first) (map axiom outs ++ rest) ->
  exists C', pol_eval pv_eqd (kget k) (fold_left (fun s i => PAdd s (PC (CAbs i))) imps e) = Some C' /\
    wclause C' (m + Z.of_nat (length outs)) (axiom first) rest.
Proof.
  intros k first imps outs e C m rest Hi I. revert e C m. induction I as [|i l imps outs (D & ID & HD) I IH]; intros e C m P Hm E HC.
  { exists C. split; [exact E|]. cbn [map app length] in *. rewrite Z.add_0_r. exact HC. }
  cbn [fold_left]. destruct (IH (PAdd e (PC (CAbs i))) (lb_add C D) (m + 1)) as (C' & E' & H').
  - unfold proper_ls in *. cbn [map app] in *. apply NoDup_cons_iff in P. destruct P as [P1 P2]. apply NoDup_cons_iff in P2. destruct P2 as [P2 P3].
    constructor; [|exact P3]. intros X. apply P1. right. exact X.
  - lia.
  - cbn [pol_eval]. rewrite E. unfold kget at 1. cbn [id_get]. rewrite (k_get _ _ _ Hi ID). reflexivity.
  - cbn [map app] in HC, P. exact (wclause_add C D m (axiom first) (axiom l) _ Hm P HC HD).
  - exists C'. split; [exact E'|]. cbn [length]. replace (m + Z.of_nat (Datatypes.S (length outs))) with (m + 1 + Z.of_nat (length outs)) by lia. exact H'.
Qed.
Lemma bos_shorten_ok : forall k0 p e0 ts inc_cost first outs lb d, wok k0 p -> w_wf ts -> (inc_cost <= pe_next_higher e0 inc_cost)%nat ->
  chain (kof k0 p) e0 ts (pe_next_higher e0 inc_cost) (first :: outs) ->
  proper_ls (map axiom (first :: outs) ++ [d]) -> derived (kof k0 p) lb (map axiom (first :: outs) ++ [d]) ->
  exists id p', bos_shorten e0 inc_cost (map lnot (first :: outs)) (Some lb) p = Some (Some id, p') /\ frame k0 p p' /\ ps_reg p' = ps_reg p /\
    derived (kof k0 p') id [axiom first; d].
Proof.
  intros k0 p e0 ts inc_cost first outs lb d W Hw Hnh ((fi & oi & O1) & Hnx & Hc) P Dl.
  unfold bos_shorten. rewrite (oa_details _ _ _ _ _ _ _ O1). destruct outs as [|l outs].
  { cbn [map]. rewrite lit_eqb_refl. exists lb, p. split; [reflexivity|]. split; [apply frame_refl; exact W|]. split; [reflexivity|exact Dl]. }
  assert (Hn : ~ In (lvar first) (map lvar (l :: outs))).
  { intros X. unfold proper_ls in P. rewrite map_app in P. apply nd_l in P. cbn [map] in P. apply NoDup_cons_iff in P. apply (proj1 P).
    apply in_map_iff in X. destruct X as (y & E & Hy). change (In (ax_var (axiom first)) (map ax_var (map axiom (l :: outs)))).
    rewrite map_map. apply in_map_iff. exists y. split; [cbn [axiom ax_var]; rewrite E; reflexivity|exact Hy]. }
  destruct (bos_imps_ok e0 ts (pe_next_higher e0 inc_cost) first fi oi inc_cost k0 Hw Hnh (l :: outs) (pe_next_higher e0 (pe_next_higher e0 inc_cost)) p W O1 Hc) as (imps & p1 & E1 & F1 & R1 & I1 & L1).
  { intros X. specialize (Hnx X). lia. }
  { exact Hn. }
  destruct Dl as (C & IC & HC).
  destruct (fold_eval (kof k0 p1) first imps (l :: outs) (PC (CAbs lb)) C 1 [d] (wk_ids _ _ (fr_wok _ _ _ F1)) I1) as (C' & E' & H').
  { exact P. }
  { lia. }
  { cbn [pol_eval]. unfold kget. cbn [id_get]. exact (k_get _ _ _ (wk_ids _ _ (fr_wok _ _ _ F1)) (fr_old _ _ _ F1 _ IC)). }
  { destruct HC as [C1 C2]. split; [|exact C2]. intros v. rewrite C1. cbn [map app]. cbn [map app] in P. unfold proper_ls in P. cbn [map] in P.
    apply NoDup_cons_iff in P. rewrite cl_cons; [lia|exact (proj1 P)]. }
  assert (Pf : proper_ls [axiom first; d]).
  { unfold proper_ls in *. rewrite map_app in P. cbn [map] in P |- *. constructor; [|repeat constructor; intros []].
    intros [X|[]]. apply NoDup_cons_iff in P. apply (proj1 P). right. apply in_or_app. right. left. exact X. }
  destruct (frame_pol k0 p p1 (shorten_pol lb imps) (lb_sat pv_eqd C') F1) as (F2 & I2 & M2).
  { unfold shorten_pol. cbn [pol_eval]. rewrite E'. reflexivity. }
  set (p2 := snd (wr_id (SPol (shorten_pol lb imps)) p1)) in *.
  destruct (frame_del k0 p p2 imps W F2 L1) as (F3 & M3).
  exists (ps_next p1), (wr (SDel (map CAbs imps) []) p2). split.
  - cbn [map]. rewrite lit_eqb_refl.
    change (lnot l :: map lnot outs) with (map lnot (l :: outs)). rewrite E1. reflexivity.
  - split; [exact F3|]. split; [exact R1|]. eexists. split.
    + apply M3; [exact I2|]. intros X. pose proof (imps_lt _ _ _ _ (wk_ids _ _ (fr_wok _ _ _ F1)) I1 _ X) as Y.
      rewrite (wk_next _ _ (fr_wok _ _ _ F1)) in Y. lia.
    + apply (wclause_sat C' (1 + Z.of_nat (length (l :: outs)))); [lia|exact Pf|exact H'].
Qed.

(** ** The clauses that enforce the cut *)
Lemma reg_units_nil : forall k, reg_units k [] [].
Proof. intros k. split; [reflexivity|]. intros c i []. Qed.
Lemma reg_units_cons : forall k a as_ i new, derived k i (map axiom [a]) -> reg_units k as_ new -> reg_units k (a :: as_) (([a], i) :: new).
Proof.
  intros k a as_ i new D [E H]. split; [cbn [map fst]; rewrite E; reflexivity|]. intros c j [X|X]; [injection X as <- <-; exact D|exact (H c j X)].
Qed.
Lemma add_last : forall k0 p q X a cut imp, wok k0 p -> frame k0 p q -> (ps_next p <= imp)%nat -> (imp < ps_next q)%nat -> ps_reg q = ps_reg p ->
  ax_var X <> PVs (lvar a) -> derived (kof k0 p) cut [ax_not X] -> derived (kof k0 q) imp [X; axiom a] ->
  let q1 := snd (wr_id (SPol (PAdd (PC (CAbs cut)) (PC (CAbs imp)))) q) in
  let q2 := wr (SDel [CAbs imp] []) (add_cert [a] (ps_next q) q1) in
  frame k0 p q2 /\ ps_reg q2 = ps_reg p ++ [([a], ps_next q)] /\ derived (kof k0 q2) (ps_next q) (map axiom [a]).
Proof.
  intros k0 p q X a cut imp W F Hi Hl R Nx (C & IC & HC) (D & ID & HD) q1 q2.
  destruct (sum_line k0 p q cut imp C D F (fr_old _ _ _ F _ IC) ID) as (F1 & I1 & M1). cbv zeta in *. fold q1 in F1, I1, M1.
  destruct (frame_del k0 p q1 [imp] W F1) as (F2 & M2).
  { intros j [<-|[]]. exact Hi. }
  change (map CAbs [imp]) with [CAbs imp] in F2, M2. split; [exact (frame_cert k0 p _ [a] (ps_next q) F2)|]. split.
  { cbn [q2 wr add_cert ps_reg q1 wr_id snd]. rewrite R. reflexivity. }
  exists (lb_add C D). split.
  - change (In (ps_next q, lb_add C D) (k_all (kof k0 (wr (SDel [CAbs imp] []) q1)))). apply M2; [exact I1|]. intros [E|[]]. lia.
  - apply (add_unit C D (ax_not X) [axiom a]).
    + repeat constructor; cbn [map In ax_not ax_var axiom]; [intros [E|[]]; apply Nx; symmetry; exact E|intros []].
    + exact HC.
    + rewrite ax_not_not. exact HD.
Qed.
Lemma bos_add_rest_ok : forall e ts dec first fi oi cut k0, w_wf ts -> forall outs val p,
  wok k0 p -> out_at (kof k0 p) e ts dec first fi oi -> derived (kof k0 p) cut [ax_not (axiom first)] ->
  chain (kof k0 p) e ts (pe_next_higher e val) outs -> (outs <> [] -> (dec <= pe_next_higher e val)%nat) -> ~ In (lvar first) (map lvar outs) ->
  exists p' new, bos_add_rest e fi dec cut (map lnot outs) val p = Some p' /\ frame k0 p p' /\ ps_reg p' = ps_reg p ++ new /\
    reg_units (kof k0 p') (map lnot outs) new.
Proof.
  intros e ts dec first fi oi cut k0 Hw outs. induction outs as [|l outs IH]; intros val p W O1 Dc Hc Hv Hn.
  { exists p, []. split; [reflexivity|]. split; [apply frame_refl; exact W|]. split; [symmetry; apply app_nil_r|apply reg_units_nil]. }
  destruct Hc as ((fi2 & oi2 & O2) & Hnx & Hc). specialize (Hv ltac:(discriminate)). set (v := pe_next_higher e val) in *.
  assert (Hne : lvar first <> lvar l) by (intros X; apply Hn; left; symmetry; exact X).
  destruct (imp_line k0 p p e ts dec v first l fi oi2 oi fi2 (Z.of_nat v - Z.of_nat dec + 1) (frame_refl k0 p W) Hw O1 O2 Hne ltac:(lia) ltac:(lia)) as (C & HC & F1 & I1 & M1).
  cbv zeta in *. set (p1 := snd (wr_id (SPol (imp_pol fi oi2 (Z.of_nat v - Z.of_nat dec + 1))) p)) in *.
  destruct (add_last k0 p p1 (axiom first) (lnot l) cut (ps_next p) W F1 ltac:(lia)) as (F2 & R2 & D2).
  { cbn [p1 wr_id snd ps_next]. lia. }
  { reflexivity. }
  { cbn [axiom ax_var lnot lvar]. intros E. apply Hne. congruence. }
  { exact Dc. }
  { exists C. split; [exact I1|]. rewrite axiom_lnot. exact HC. }
  cbv zeta in F2, R2, D2. match type of F2 with frame _ _ ?q => set (p2 := q) in * end.
  destruct (IH v p2 (fr_wok _ _ _ F2)) as (p' & new & E' & F' & R' & U').
  - exact (out_at_mono _ _ _ _ _ _ _ _ (fr_old _ _ _ F2) O1).
  - exact (derived_mono _ _ _ _ (fr_old _ _ _ F2) Dc).
  - exact (chain_mono _ _ _ _ _ _ (fr_old _ _ _ F2) Hc).
  - intros X. specialize (Hnx X). lia.
  - intros X. apply Hn. right. exact X.
  - exists p', (([lnot l], ps_next p1) :: new). split.
    + cbn [map bos_add_rest]. fold v. rewrite (oa_details _ _ _ _ _ _ _ O2), lit_eqb_refl. exact E'.
    + split; [exact (frame_trans _ _ _ _ F2 F')|]. split; [rewrite R', R2, <- app_assoc; reflexivity|].
      cbn [map]. apply reg_units_cons; [exact (derived_mono _ _ _ _ (fr_old _ _ _ F') D2)|exact U'].
Qed.
Lemma bos_add_ok : forall k0 p e ts dec first outs cut, wok k0 p -> w_wf ts -> chain (kof k0 p) e ts dec (first :: outs) ->
  NoDup (map lvar (first :: outs)) -> pe_enforce_ub e (dec - 1) = Some (map lnot (first :: outs)) ->
  derived (kof k0 p) cut [ax_not (axiom first)] ->
  exists p' new, bos_add e dec cut p = Some p' /\ frame k0 p p' /\ ps_reg p' = ps_reg p ++ new /\
    reg_units (kof k0 p') (map lnot (first :: outs)) new.
Proof.
  intros k0 p e ts dec first outs cut W Hw ((fi & oi & O1) & Hnx & Hc) Hn He Dc. unfold bos_add. rewrite He. cbn [map].
  rewrite (oa_details _ _ _ _ _ _ _ O1), lit_eqb_refl.
  pose proof (frame_cert k0 p p [lnot first] cut (frame_refl k0 p W)) as F1. set (p1 := add_cert [lnot first] cut p) in *.
  destruct outs as [|l outs].
  { exists p1, [([lnot first], cut)]. split; [reflexivity|]. split; [exact F1|]. split; [reflexivity|].
    apply reg_units_cons; [|apply reg_units_nil]. cbn [map]. rewrite axiom_lnot. exact Dc. }
  cbn [map]. destruct (bos_add_rest_ok e ts dec first fi oi cut k0 Hw (l :: outs) dec p1 (fr_wok _ _ _ F1) O1 Dc Hc) as (p' & new & E' & F' & R' & U').
  { intros X. specialize (Hnx X). lia. }
  { cbn [map] in Hn. apply NoDup_cons_iff in Hn. exact (proj1 Hn). }
  exists p', (([lnot first], cut) :: new). split; [exact E'|]. split; [exact (frame_trans _ _ _ _ F1 F')|]. split; [rewrite R'; cbn [p1 add_cert ps_reg]; rewrite <- app_assoc; reflexivity|].
  apply reg_units_cons; [|exact U']. apply (derived_mono _ _ _ _ (fr_old _ _ _ F')). cbn [map]. rewrite axiom_lnot. exact Dc.
Qed.
Lemma bos_add_buf_loop_ok : forall e o value n d1 cut k0, forall as_ val p,
  wok k0 p -> In (d1, bound_def_1 o value (PVp n)) (k_all (kof k0 p)) -> derived (kof k0 p) cut [mkAx (PVp n) true] ->
  buf_from (kof k0 p) e o value val as_ ->
  exists p' new, bos_add_buf_loop e (mkAx (PVp n) false) d1 cut as_ val p = Some p' /\ frame k0 p p' /\ ps_reg p' = ps_reg p ++ new /\
    reg_units (kof k0 p') as_ new.
Proof.
  intros e o value n d1 cut k0 as_. induction as_ as [|a r IH]; intros val p W Hd1 Dc Ho.
  { exists p, []. split; [reflexivity|]. split; [apply frame_refl; exact W|]. split; [symmetry; apply app_nil_r|apply reg_units_nil]. }
  cbn [buf_from] in Ho. destruct Ho as (olit & i & oi & Ed & Ho). set (cl := [mkAx (PVp n) false; axiom a]).
  assert (Hf : forall x : pv -> bool, (forall l, In l cl -> ax_true x l = false) -> x (PVp n) = false).
  { intros x Hx. specialize (Hx _ (or_introl eq_refl)). unfold ax_true in Hx. cbn in Hx. destruct (x (PVp n)); [discriminate|reflexivity]. }
  assert (Ha : forall x : pv -> bool, (forall l, In l cl -> ax_true x l = false) -> ax_true x (axiom (lnot a)) = true).
  { intros x Hx. rewrite axiom_lnot, ax_not_true, Hx; [reflexivity|]. right. left. reflexivity. }
  assert (Pc : proper_ls cl) by (repeat constructor; cbn [map In cl axiom ax_var]; [intros [E|[]]; discriminate|intros []]).
  assert (Hcl : clausal (lb_clause cl) cl).
  { apply clausal_clause; [|exact (proper_nontaut _ Pc)]. repeat constructor; cbn [In]; [intros [E|[]]; discriminate|intros []]. }
  assert (Hn : (n < ps_nextvar p)%nat).
  { apply (wk_fresh _ _ W (d1, bound_def_1 o value (PVp n)) n Hd1). unfold cvars, bound_def_1. cbn [snd lb_terms]. rewrite !map_app, in_app_iff. right. left. reflexivity. }
  assert (Hv : forall m, In (PVp m) (cvars (lb_clause cl)) -> (m < ps_nextvar p)%nat).
  { intros m H. rewrite lb_clause_vars in H. destruct H as [H|[H|[]]]; [injection H as <-; exact Hn|discriminate]. }
  destruct Ho as [(Hlt & Hh & Ho)|(Hge & Hal & (d & Hoi & (D & ts & v & ID & HD & Hvl & Hs)) & Ho)].
  - destruct (frame_rup k0 p p (lb_clause cl) [d1] [bound_def_1 o value (PVp n)] (frame_refl k0 p W)) as (F2 & I2 & M2).
    { constructor; [exact Hd1|constructor]. }
    { apply (rup_two _ cl []); [intros m []|]. eexists. split; [left; reflexivity|]. intros x Hx _.
      apply (heavy_conflict x o value (PVp n) (lnot a) Hh); [exact (Hf x Hx)|exact (Ha x Hx)]. }
    { exact Hv. }
    change (map CAbs [d1]) with [CAbs d1] in F2, I2, M2. set (p2 := snd (wr_id (SRup (lb_clause cl) [CAbs d1]) p)) in *.
    destruct (add_last k0 p p2 (mkAx (PVp n) false) a cut (ps_next p) W F2 ltac:(lia)) as (F3 & R3 & D3).
    { cbn [p2 wr_id snd ps_next]. lia. }
    { reflexivity. }
    { discriminate. }
    { exact Dc. }
    { exists (lb_clause cl). split; [exact I2|exact Hcl]. }
    cbv zeta in F3, R3, D3. match type of F3 with frame _ _ ?q => set (p3 := q) in * end.
    destruct (IH val p3 (fr_wok _ _ _ F3) (fr_old _ _ _ F3 _ Hd1) (derived_mono _ _ _ _ (fr_old _ _ _ F3) Dc) (buf_from_mono _ _ _ _ _ _ _ (fr_old _ _ _ F3) Ho)) as (p' & new & E' & F' & R' & U').
    exists p', (([a], ps_next p2) :: new). split.
    + cbn [bos_add_buf_loop]. rewrite Ed. destruct (Nat.ltb_spec (lvar a) (lvar olit)); [|lia]. exact E'.
    + split; [exact (frame_trans _ _ _ _ F3 F')|]. split; [rewrite R', R3, <- app_assoc; reflexivity|].
      apply reg_units_cons; [exact (derived_mono _ _ _ _ (fr_old _ _ _ F') D3)|exact U'].
  - subst oi. pose proof (wk_ids _ _ W) as Wi.
    destruct (sum_line k0 p p d1 d (bound_def_1 o value (PVp n)) D (frame_refl k0 p W) Hd1 ID) as (F1 & I1 & M1). cbv zeta in *.
    set (p1 := snd (wr_id (SPol (PAdd (PC (CAbs d1)) (PC (CAbs d)))) p)) in *.
    destruct (frame_rup k0 p p1 (lb_clause cl) [ps_next p] [lb_add (bound_def_1 o value (PVp n)) D] F1) as (F2 & I2 & M2).
    { constructor; [exact I1|constructor]. }
    { apply (rup_two _ cl []); [intros m []|]. eexists. split; [left; reflexivity|]. intros x Hx _.
      apply (part_conflict x o value (PVp n) olit D ts v HD Hvl Hs); [exact (Hf x Hx)|]. rewrite <- (lnot_lnot olit), <- Hal. exact (Ha x Hx). }
    { exact Hv. }
    change (map CAbs [ps_next p]) with [CAbs (ps_next p)] in F2, I2, M2. set (p2 := snd (wr_id (SRup (lb_clause cl) [CAbs (ps_next p)]) p1)) in *.
    destruct (frame_del k0 p p2 [ps_next p] W F2) as (F3 & M3).
    { intros j [<-|[]]. lia. }
    change (map CAbs [ps_next p]) with [CAbs (ps_next p)] in F3, M3. set (p3 := wr (SDel [CAbs (ps_next p)] []) p2) in *.
    destruct (add_last k0 p p3 (mkAx (PVp n) false) a cut (ps_next p1) W F3) as (F4 & R4 & D4).
    { cbn [p1 wr_id snd ps_next]. lia. }
    { cbn [p3 wr p2 wr_id snd ps_next]. lia. }
    { reflexivity. }
    { discriminate. }
    { exact Dc. }
    { exists (lb_clause cl). split; [|exact Hcl]. apply M3; [exact I2|]. intros [E|[]]. cbn [p1 wr_id snd ps_next] in E. lia. }
    cbv zeta in F4, R4, D4. match type of F4 with frame _ _ ?q => set (p4 := q) in * end.
    destruct (IH (pe_next_higher e val) p4 (fr_wok _ _ _ F4) (fr_old _ _ _ F4 _ Hd1) (derived_mono _ _ _ _ (fr_old _ _ _ F4) Dc) (buf_from_mono _ _ _ _ _ _ _ (fr_old _ _ _ F4) Ho)) as (p' & new & E' & F' & R' & U').
    exists p', (([a], ps_next p3) :: new). split.
    + cbn [bos_add_buf_loop]. rewrite Ed. destruct (Nat.ltb_spec (lvar a) (lvar olit)); [lia|]. rewrite Hal, lit_eqb_refl, <- Hal. exact E'.
    + split; [exact (frame_trans _ _ _ _ F4 F')|]. split; [rewrite R', R4, <- app_assoc; reflexivity|].
      apply reg_units_cons; [exact (derived_mono _ _ _ _ (fr_old _ _ _ F') D4)|exact U'].
Qed.

(** ** A bound that is not a clause over these outputs is rewritten as well *)
Lemma fold_any : forall k first imps outs e C, ids_ok k -> imps_ok k first imps outs -> pol_eval pv_eqd (kget k) e = Some C ->
  exists C', pol_eval pv_eqd (kget k) (fold_left (fun s i => PAdd s (PC (CAbs i))) imps e) = Some C'.
Proof.
  intros k first imps outs e C Hi I. revert e C. induction I as [|i l imps outs (D & ID & HD) I IH]; intros e C E.
  { exists C. exact E. }
  cbn [fold_left]. apply (IH (PAdd e (PC (CAbs i))) (lb_add C D)). cbn [pol_eval]. rewrite E. unfold kget at 1. cbn [id_get]. rewrite (k_get _ _ _ Hi ID). reflexivity.
Qed.
Lemma bos_shorten_any : forall k0 p e0 ts inc_cost first outs lb C, wok k0 p -> w_wf ts -> (inc_cost <= pe_next_higher e0 inc_cost)%nat ->
  chain (kof k0 p) e0 ts (pe_next_higher e0 inc_cost) (first :: outs) -> NoDup (map lvar (first :: outs)) -> In (lb, C) (k_all (kof k0 p)) ->
  exists id p', bos_shorten e0 inc_cost (map lnot (first :: outs)) (Some lb) p = Some (Some id, p') /\ frame k0 p p' /\ ps_reg p' = ps_reg p.
Proof.
  intros k0 p e0 ts inc_cost first outs lb C W Hw Hnh ((fi & oi & O1) & Hnx & Hc) P IC.
  unfold bos_shorten. rewrite (oa_details _ _ _ _ _ _ _ O1). destruct outs as [|l outs].
  { cbn [map]. rewrite lit_eqb_refl. exists lb, p. split; [reflexivity|]. split; [apply frame_refl; exact W|reflexivity]. }
  destruct (bos_imps_ok e0 ts (pe_next_higher e0 inc_cost) first fi oi inc_cost k0 Hw Hnh (l :: outs) (pe_next_higher e0 (pe_next_higher e0 inc_cost)) p W O1 Hc) as (imps & p1 & E1 & F1 & R1 & I1 & L1).
  { intros X. specialize (Hnx X). lia. }
  { cbn [map] in P. apply NoDup_cons_iff in P. exact (proj1 P). }
  destruct (fold_any (kof k0 p1) first imps (l :: outs) (PC (CAbs lb)) C (wk_ids _ _ (fr_wok _ _ _ F1)) I1) as (C' & E').
  { cbn [pol_eval]. unfold kget. cbn [id_get]. exact (k_get _ _ _ (wk_ids _ _ (fr_wok _ _ _ F1)) (fr_old _ _ _ F1 _ IC)). }
  destruct (frame_pol k0 p p1 (shorten_pol lb imps) (lb_sat pv_eqd C') F1) as (F2 & I2 & M2).
  { unfold shorten_pol. cbn [pol_eval]. rewrite E'. reflexivity. }
  set (p2 := snd (wr_id (SPol (shorten_pol lb imps)) p1)) in *.
  destruct (frame_del k0 p p2 imps W F2 L1) as (F3 & M3).
  exists (ps_next p1), (wr (SDel (map CAbs imps) []) p2). split; [|split; [exact F3|exact R1]].
  cbn [map]. rewrite lit_eqb_refl. change (lnot l :: map lnot outs) with (map lnot (l :: outs)). rewrite E1. reflexivity.
Qed.
Lemma inc_bound_mono : forall k k' e0 ic il id b x, (forall y, In y (k_all k) -> In y (k_all k')) -> inc_bound k e0 ic il id b x -> inc_bound k' e0 ic il id b x.
Proof.
  intros k k' e0 ic il id b x M H Hlt. destruct (H Hlt) as [H1 H2]. split.
  - intros E. destruct (H1 E) as (c & l & d & A & B & C & D & F). exists c, l, d. split; [exact A|]. split; [exact B|].
    split; [exact (derived_mono _ _ _ _ M C)|]. split; [exact (derived_mono _ _ _ _ M D)|exact F].
  - intros E. destruct (H2 E) as (i & A & B). exists i. split; [exact A|exact (derived_mono _ _ _ _ M B)].
Qed.
Lemma derived_unit : forall k i l (a : pv -> bool), derived k i [l] -> proof_holds a k -> ax_true a l = true.
Proof.
  intros k i l a (C & IC & HC) Ha. specialize (Ha _ IC). cbn [snd] in Ha. rewrite (clausal_holds a C [l]) in Ha; [|apply proper_nontaut; repeat constructor; intros []|exact HC].
  destruct Ha as (x & [<-|[]] & X). exact X.
Qed.
Lemma derived_empty : forall k i (a : pv -> bool), derived k i [] -> ~ proof_holds a k.
Proof.
  intros k i a (C & IC & HC) Ha. specialize (Ha _ IC). cbn [snd] in Ha. rewrite (clausal_holds a C []) in Ha; [|intros x []|exact HC].
  destruct Ha as (x & [] & _).
Qed.
