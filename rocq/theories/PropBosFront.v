(** * C74: the front reported by a BiOptSat run with proof logging *)
From Coq Require Import List Arith ZArith Lia Bool.
From Verif Require Import Spec ApiSpec Base BaseLemmas Sem Ext ApiTop MTypes MKernel MPMinimal MPrepro VeriPB VeriThm MProofs ProofThm ProofRun ProofCut TracerThm ReformSpec MProofAlg ReifSpec ReifThm ReifRun ProofCert LinsuCert BlockSpec BlockThm BosSpec RunSpec RunThm RunSol BosRunSpec BosRunThm PropBosRun BoostSpec BoostThm MProofRun FrontThm MProofBos BosFrontThm.
Import ListNotations.
Local Open Scope nat_scope.

(** The algorithm starts with encodings without outputs; core boosting leads to the state [r0] ([bst_refl]: no core boosting) with the
    encodings [e0] and [e1], whose offsets are the lower bounds of their objectives (bioptsat.rs 378-379); the loop of BiOptSat leads to the state [s]. *)
Definition bf_reaches (n : nat) (cls : list clause) (rs : list raw_obj) (dec_lb : nat) (s : bfstate) : Prop :=
  exists cs r0 e0 e1, map co_obj cs = build_objs 0 rs /\ (forall c b, In c cs -> pe_extend (co_enc c) b = []) /\
    let k0 := init_chk cls (build_objs 0 rs) in
    enc_fine (k_all k0) cs /\ boosts k0 n (inst_sol n cls) (start_run n cls cs) r0 /\ r_cs r0 = [e0; e1] /\
    pe_offset (co_enc e0) = obj_lb (co_obj e0) /\ pe_offset (co_enc e1) = obj_lb (co_obj e1) /\ dec_lb = pe_offset (co_enc e1) /\
    bf_runs k0 n cls dec_lb (mkBf BoSearch (bos_start r0 (pe_offset (co_enc e0))) []) s.

Lemma reaches_inv : forall n cls rs dec_lb s, Forall obj_ok rs -> Forall obj_fits rs -> inst_vars n cls rs -> bf_reaches n cls rs dec_lb s ->
  let k0 := init_chk cls (build_objs 0 rs) in
  exists o0 o1, map bare [o0; o1] = map bare (build_objs 0 rs) /\ (forall v, externalize_all [o0; o1] v = externalize_all (build_objs 0 rs) v) /\
    (forall b, inst_sol n cls b -> dec_lb <= icost o1 (asg_of b)) /\ dec_lb = obj_lb o1 /\ b_inv k0 n cls rs o0 o1 dec_lb s /\ enc_works k0 cls (br_r (bf_s s)).
Proof.
  intros n cls rs dec_lb s Hok Hfit Hv (cs & r0 & e0 & e1 & Eo & Ex & Hf & B & Ecs & F0 & F1 & Ed & H) k0. exists (co_obj e0), (co_obj e1).
  destruct (b_start n cls rs cs r0 (co_obj e0) (co_obj e1) Hv Eo Ex Hf B) as (A1 & A2 & A3 & A4); [rewrite Ecs; reflexivity|].
  rewrite <- F0, <- F1, <- Ed in A4. rewrite <- F1, <- Ed in A3. split; [exact A1|]. split; [exact A2|]. split; [exact A3|]. split; [congruence|].
  exact (b_runs_inv k0 n cls rs (co_obj e0) (co_obj e1) dec_lb Hok Hfit Hv A1 A2 A3 _ _ A4 H).
Qed.
Lemma fop_rev : forall (A : Type) (R : A -> A -> Prop) l, ForallOrdPairs R l -> ForallOrdPairs (fun x y => R y x) (rev l).
Proof.
  intros A R l H. induction H as [|x l H1 H2 IH]; [constructor|]. cbn [rev].
  assert (Q : forall m, ForallOrdPairs (fun x y => R y x) m -> Forall (R x) m -> ForallOrdPairs (fun x y => R y x) (m ++ [x])).
  { intros m Hm. induction Hm as [|y m Hy Hm IHm]; intros HF; cbn [app]; [constructor; constructor|]. inversion HF as [|a b F1 F2 Ea]. subst. constructor; [|exact (IHm F2)].
    apply Forall_app. split; [exact Hy|constructor; [exact F1|constructor]]. }
  apply Q; [exact IH|]. apply Forall_forall. intros y Hy. apply in_rev in Hy. exact (proj1 (Forall_forall _ _) H1 y Hy).
Qed.
Lemma fop_map : forall (A B : Type) (f : A -> B) (R : A -> A -> Prop) (S : B -> B -> Prop) l, (forall x y, R x y -> S (f x) (f y)) -> ForallOrdPairs R l -> ForallOrdPairs S (map f l).
Proof.
  intros A B f R S l HRS H. induction H as [|x l H1 H2 IH]; cbn [map]; constructor; [|exact IH]. apply Forall_forall. intros y Hy. apply in_map_iff in Hy. destruct Hy as (z & <- & Hz).
  apply HRS. exact (proj1 (Forall_forall _ _) H1 z Hz).
Qed.
(** [p] is left of and above [q] *)
Definition left_above (p q : list Z) : Prop := exists x y x' y', p = [x; y] /\ q = [x'; y'] /\ (x < x' /\ y' < y)%Z.
Lemma left_above_nodup : forall l, ForallOrdPairs left_above l -> NoDup l.
Proof.
  intros l H. induction H as [|p l H1 H2 IH]; constructor; [|exact IH]. intros X. destruct (proj1 (Forall_forall _ _) H1 p X) as (x & y & x' & y' & -> & E & L1 & L2). injection E as -> ->. lia.
Qed.
Lemma after_left : forall rs o0 o1 b d, Forall obj_ok rs -> map bare [o0; o1] = map bare (build_objs 0 rs) -> after o0 o1 b d -> left_above (costs rs (asg_of d)) (costs rs (asg_of b)).
Proof.
  intros rs o0 o1 b d Hok Hbare (L0 & L1). destruct rs as [|r0 [|r1 [|r2 rs]]]; try discriminate. pose proof (two_costs _ o0 o1 Hbare b) as Eb. pose proof (two_costs _ o0 o1 Hbare d) as Ed.
  cbn [build_objs ic map] in Eb, Ed. inversion Hok as [|x l O0 H1 Ex]. inversion H1 as [|x2 l2 O1 H2 Ex2]. subst.
  exists (obj_value r0 (asg_of d)), (obj_value r1 (asg_of d)), (obj_value r0 (asg_of b)), (obj_value r1 (asg_of b)). split; [reflexivity|]. split; [reflexivity|].
  pose proof (icost_le r0 0 (asg_of b) (asg_of d) O0) as Q0. pose proof (icost_le r1 1 (asg_of d) (asg_of b) O1) as Q1.
  injection Eb as Eb0 Eb1. injection Ed as Ed0 Ed1. rewrite Eb0, Ed0 in Q0. rewrite Eb1, Ed1 in Q1. split; lia.
Qed.

(** At every point of the run the proof is accepted; every point of the front is Pareto-optimal; its only solution is a solution of the
    instance with these costs, which is excluded in the proof or will be by the iteration that follows; the points are found from left to right,
    none twice. *)
Theorem C74_front : forall n cls rs dec_lb s, Forall obj_ok rs -> Forall obj_fits rs -> inst_vars n cls rs -> bf_reaches n cls rs dec_lb s ->
  let k0 := init_chk cls (build_objs 0 rs) in
  steps_valid k0 (ps_log (r_p (br_r (bf_s s)))) /\
  (forall p, In p (bf_front s) -> pareto_optimal cls rs (nd_costs p) /\
     exists b, nd_sols p = [b] /\ inst_sol n cls b /\ costs rs (asg_of b) = nd_costs p /\
       (In (map axiom (sol_lits b)) (k_excl (kof k0 (r_p (br_r (bf_s s))))) \/ bf_at s = BoYielded b)) /\
  ForallOrdPairs left_above (map nd_costs (bf_front s)) /\ NoDup (map nd_costs (bf_front s)).
Proof.
  intros n cls rs dec_lb s Hok Hfit Hv H k0. destruct (reaches_inv n cls rs dec_lb s Hok Hfit Hv H) as (o0 & o1 & A1 & A2 & A3 & _ & I & _). fold k0 in I.
  pose proof (bo_run _ _ _ _ (bv_ok _ _ _ _ _ _ _ _ I)) as R. split; [exact (wk_valid _ _ (ro_wok _ _ _ _ R))|].
  assert (Q : ForallOrdPairs left_above (map nd_costs (bf_front s))).
  { rewrite (bv_front _ _ _ _ _ _ _ _ I), map_map. apply (fop_map _ _ _ (fun x y => after o0 o1 y x)); [intros x y L; exact (after_left rs o0 o1 y x Hok A1 L)|].
    apply fop_rev. exact (bv_order _ _ _ _ _ _ _ _ I). }
  split; [|split; [exact Q|exact (left_above_nodup _ Q)]].
  intros p Hp. rewrite (bv_front _ _ _ _ _ _ _ _ I) in Hp. apply in_map_iff in Hp. destruct Hp as (b & <- & Hb). apply in_rev in Hb.
  split; [exact (bv_opt _ _ _ _ _ _ _ _ I b Hb)|]. exists b. split; [reflexivity|]. apply in_app_or in Hb. destruct Hb as [Hb|Hb].
  - pose proof (bv_at _ _ _ _ _ _ _ _ I) as Q2. destruct (bf_at s) as [|w|inc w|b'|] eqn:Ea; try (destruct Hb; fail). destruct Hb as [<-|[]].
    split; [exact (proj1 (proj1 Q2))|]. split; [reflexivity|right; reflexivity].
  - split; [exact (bv_sols _ _ _ _ _ _ _ _ I b Hb)|]. split; [reflexivity|]. left. rewrite (ro_excl _ _ _ _ R). apply in_map_iff. exists b. split; [reflexivity|exact Hb].
Qed.
Print Assumptions C74_front.
(** When the algorithm returns, the front is the Pareto front, and the proof contains a contradiction *)
Theorem C74_finished : forall n cls rs dec_lb s, Forall obj_ok rs -> Forall obj_fits rs -> inst_vars n cls rs -> bf_reaches n cls rs dec_lb s ->
  let k0 := init_chk cls (build_objs 0 rs) in
  bf_finished k0 s -> is_pareto_front cls rs (map nd_costs (bf_front s)) /\ exists e, In e (k_all (kof k0 (r_p (br_r (bf_s s))))) /\ contradictory (snd e).
Proof.
  intros n cls rs dec_lb s Hok Hfit Hv H k0 Fin. pose proof (C74_front n cls rs dec_lb s Hok Hfit Hv H) as (_ & Opt & _ & Once). destruct (reaches_inv n cls rs dec_lb s Hok Hfit Hv H) as (o0 & o1 & A1 & A2 & A3 & _ & I & _). fold k0 in I.
  pose proof (bv_ok _ _ _ _ _ _ _ _ I) as BO.
  assert (Con : exists e, In e (k_all (kof k0 (r_p (br_r (bf_s s))))) /\ contradictory (snd e)).
  { destruct Fin as [Ea|(Ea & core & id & C & Hi & Hin & Hsame)].
    - pose proof (bv_end _ _ _ _ _ _ _ _ I Ea) as X. destruct (br_end (bf_s s)) as [id|] eqn:E; [|contradiction]. destruct (bo_end _ _ _ _ BO id E) as (C & Y & Q). exists (id, C). split; assumption.
    - exists (id, C). split; [exact Hin|]. intros a _ X. cbn [snd] in X. rewrite (lb_same_holds pv_eqd _ _ Hsame) in X. apply lb_clause_holds in X. destruct X as (l & Hl & _).
      destruct core as [|y core]; [destruct Hl|]. exact (Hi y (or_introl eq_refl)). }
  split; [|exact Con]. split; [exact Once|]. intros c. split.
  - intros Hc. apply in_map_iff in Hc. destruct Hc as (p & <- & Hp). exact (proj1 (Opt p Hp)).
  - intros Hc. destruct (gen_complete k0 n cls rs (br_r (bf_s s)) Hok Hv (bo_run _ _ _ _ BO)) as (_ & Q); [rewrite (bv_two _ _ _ _ _ _ _ _ I); exact A1|exact (bv_sols _ _ _ _ _ _ _ _ I)|exact Con|].
    destruct (Q c Hc) as (d & Hd & <-). rewrite (bv_front _ _ _ _ _ _ _ _ I), map_map. apply in_map_iff. exists d. split; [reflexivity|]. apply -> in_rev. apply in_or_app. right. exact Hd.
Qed.
Print Assumptions C74_finished.
(** A solution found in linear search has a smaller cost than the last one (the assertion in algs.rs 868), and the bound on the
    increasing objective still holds *)
Theorem C74_improves : forall n cls rs dec_lb s s' w w', Forall obj_ok rs -> Forall obj_fits rs -> inst_vars n cls rs -> bf_reaches n cls rs dec_lb s ->
  let k0 := init_chk cls (build_objs 0 rs) in
  bf_step k0 n cls dec_lb s s' ->
  (bf_at s = BoInc w -> bf_at s' = BoInc w' -> w <> w' -> forall c0 c1, r_cs (br_r (bf_s s)) = [c0; c1] -> cost_of c0 w' < cost_of c0 w) /\
  (forall inc, bf_at s = BoDec inc w -> bf_at s' = BoDec inc w' -> w <> w' -> forall c0 c1, r_cs (br_r (bf_s s)) = [c0; c1] -> cost_of c1 w' < cost_of c1 w /\ cost_of c0 w' = cost_of c0 w).
Proof.
  intros n cls rs dec_lb s s' w w' Hok Hfit Hv H k0 S. destruct (reaches_inv n cls rs dec_lb s Hok Hfit Hv H) as (o0 & o1 & A1 & A2 & A3 & _ & I & W). fold k0 in I, W.
  pose proof (b_step_inv k0 n cls rs o0 o1 dec_lb Hok Hfit Hv A1 A2 A3 s s' I W S) as I'. pose proof (bo_run _ _ _ _ (bv_ok _ _ _ _ _ _ _ _ I)) as R.
  pose proof (bv_two _ _ _ _ _ _ _ _ I) as E2. split.
  - intros Ea Ea' Hne d0 d1 Ecs. destruct S as [at_ s s' F E Ed|s F x Hw|s F x c0 c1 A x' Ec Hl EA Hw' HT|s F x c0 c1 Ec Hstop|s F inc x c0 c1 A B x' Ec Hl EA EB Hw' HT|s F inc x c0 c1 c Ec Hstop Ex|s s' F b E Ed En|s s' F b E Ed En]; cbn [bf_at bf_s] in *; try congruence.
    injection Ea as ->. injection Ea' as ->. rewrite Ec in Ecs. injection Ecs as -> ->. pose proof (enforced k0 n cls (br_r s) d0 _ A w' R W ltac:(rewrite Ec; left; reflexivity) EA Hw' HT). lia.
  - intros inc Ea Ea' Hne d0 d1 Ecs. pose proof (bv_at _ _ _ _ _ _ _ _ I) as P. pose proof (bv_at _ _ _ _ _ _ _ _ I') as P'. rewrite Ea in P. rewrite Ea' in P'.
    destruct S as [at_ s s' F E Ed|s F x Hw|s F x c0 c1 A x' Ec Hl EA Hw' HT|s F x c0 c1 Ec Hstop|s F inc2 x c0 c1 A B x' Ec Hl EA EB Hw' HT|s F inc2 x c0 c1 c Ec Hstop Ex|s s' F b E Ed En|s s' F b E Ed En]; cbn [bf_at bf_s] in *; try congruence.
    injection Ea as -> ->. injection Ea' as ->. rewrite Ec in Ecs. injection Ecs as -> ->. split.
    + assert (TB : lits_true (asg_of w') B) by (intros l Hl'; apply HT; apply in_or_app; right; exact Hl').
      pose proof (enforced k0 n cls (br_r s) d1 _ B w' R W ltac:(rewrite Ec; right; left; reflexivity) EB Hw' TB). lia.
    + assert (E0 : co_obj d0 = o0) by (rewrite Ec in E2; cbn [map] in E2; congruence). unfold cost_of. rewrite E0.
      rewrite <- (trunc_cost2 k0 n cls o0 o1 (br_r s) w o0 R E2 (or_introl eq_refl)), <- (trunc_cost2 k0 n cls o0 o1 (br_r s) w' o0 R E2 (or_introl eq_refl)). destruct P as (_ & P & _), P' as (_ & P' & _). congruence.
Qed.
Print Assumptions C74_improves.
(** A solution at the minimum can be yielded, and the iteration after it succeeds: the proof goes on, or is concluded if the decreasing objective is
    at its lower bound *)
Theorem C74_yield : forall n cls rs dec_lb s inc w c0 c1, Forall obj_ok rs -> Forall obj_fits rs -> inst_vars n cls rs -> bf_reaches n cls rs dec_lb s ->
  let k0 := init_chk cls (build_objs 0 rs) in
  bf_at s = BoDec inc w -> r_cs (br_r (bf_s s)) = [c0; c1] ->
  cost_of c1 w <= dec_lb \/ (exists A B, pe_enforce_ub (co_enc c0) inc = Some A /\ pe_enforce_ub (co_enc c1) (cost_of c1 w - 1) = Some B /\
      solver_unsat k0 (br_r (bf_s s)) (A ++ B)) ->
  bf_step k0 n cls dec_lb s (mkBf (BoYielded (truncate w n)) (bf_s s) (bf_front s ++ [mkNd (costs rs (asg_of (truncate w n))) [truncate w n]])).
Proof.
  intros n cls rs dec_lb s inc w c0 c1 Hok Hfit Hv H k0 Ea Ecs Hstop. destruct (reaches_inv n cls rs dec_lb s Hok Hfit Hv H) as (o0 & o1 & A1 & A2 & A3 & _ & I & W). fold k0 in I, W.
  pose proof (bo_run _ _ _ _ (bv_ok _ _ _ _ _ _ _ _ I)) as R. pose proof (bv_two _ _ _ _ _ _ _ _ I) as E2.
  assert (E0 : co_obj c0 = o0) by (rewrite Ecs in E2; cbn [map] in E2; congruence). assert (E1 : co_obj c1 = o1) by (rewrite Ecs in E2; cbn [map] in E2; congruence).
  destruct s as [at_ s F]. cbn [bf_at bf_s bf_front] in *. subst at_. apply (bf_yield k0 n cls dec_lb s F inc w c0 c1); [exact Ecs|exact Hstop|].
  unfold cost_of. rewrite E0, E1. rewrite <- (trunc_cost2 k0 n cls o0 o1 (br_r s) w o0 R E2 (or_introl eq_refl)), <- (trunc_cost2 k0 n cls o0 o1 (br_r s) w o1 R E2 (or_intror eq_refl)).
  exact (two_ext rs o0 o1 Hok Hfit A1 A2 (truncate w n)).
Qed.
Print Assumptions C74_yield.
Theorem C74_iterate : forall n cls rs dec_lb s sb w c0 c1 nv p L done b lb f i inc dec out0 inc_id assumps first0 first1 lb_id,
  Forall obj_ok rs -> Forall obj_fits rs -> inst_vars n cls rs -> bf_reaches n cls rs dec_lb s ->
  let k0 := init_chk cls (build_objs 0 rs) in
  bf_at s = BoYielded sb -> bf_s s = mkBr (mkRst [c0; c1] nv p L done) b lb f i (Some (assumps, dec, first1, lb_id)) None ->
  witness_of [c0; c1] n p sb w ->
  inc = icost (co_obj c0) (asg_of sb) -> dec = icost (co_obj c1) (asg_of sb) -> dec_lb < dec ->
  several c0 -> several c1 -> (forall c, In c (for_sol [c0; c1] sb) -> low_pre c) -> pe_offset (co_enc c1) = obj_lb (co_obj c1) ->
  inc_pre (bf_s s) c0 nv inc out0 inc_id -> outs_pre (kof k0 p) nv c0 c1 inc dec out0 assumps first0 first1 ->
  exists pmin p1 b' p2, certify_pmin_cut (for_sol [c0; c1] sb) w n p = Some (pmin, p1) /\
    bos_step (co_enc c0) (co_enc c1) (co_obj c1) inc dec lb inc_id (Some lb_id) assumps pmin b p1 = Some (b', p2) /\
    bf_step k0 n cls dec_lb s (mkBf BoSearch (mkBr (mkRst [c0; c1] nv p2 L (sb :: done)) b' (inc + 1) (Some first0) None None None) (bf_front s)).
Proof.
  intros n cls rs dec_lb s sb w c0 c1 nv p L done b lb f i inc dec out0 inc_id assumps first0 first1 lb_id Hok Hfit Hv H k0 Ea Es Hw Ei Ed Hl S0 S1 Hlow Hoff Hinc Hout.
  destruct (reaches_inv n cls rs dec_lb s Hok Hfit Hv H) as (o0 & o1 & A1 & A2 & A3 & Elb & I & W). fold k0 in I, W.
  pose proof (bv_at _ _ _ _ _ _ _ _ I) as P. rewrite Ea in P. destruct P as ((Hb & Hd) & _). pose proof (bv_two _ _ _ _ _ _ _ _ I) as E2. pose proof (bv_ok _ _ _ _ _ _ _ _ I) as BO.
  rewrite Es in Hd, E2. cbn [br_r r_cs r_done] in Hd, E2. assert (E1 : co_obj c1 = o1) by (cbn [map] in E2; congruence).
  assert (Hd' : forall d, In d done -> better [c0; c1] sb d) by (intros d X; apply (better_two o0 o1 [c0; c1] sb d E2); exact (Hd d X)).
  assert (Hdl : pe_offset (co_enc c1) < dec) by (rewrite Hoff, E1, <- Elb; exact Hl).
  destruct (iterate_ok k0 n (inst_sol n cls) (bf_s s) c0 c1 nv p L done b lb f i sb w inc dec out0 inc_id assumps first0 first1 lb_id (fun b Hb => proj1 Hb) Es BO Hb Hd' Hw Ei Ed Hdl S0 S1 Hlow Hoff Hinc Hout) as (pmin & p1 & b' & p2 & Ec & Eb & _ & _).
  exists pmin, p1, b', p2. split; [exact Ec|]. split; [exact Eb|]. destruct s as [at_ s F]. cbn [bf_at bf_s bf_front] in *. subst at_. apply (bf_iterate k0 n cls dec_lb s _ F sb).
  - apply (be_iterate k0 n (inst_sol n cls) s c0 c1 nv p L done b lb f i sb w inc dec out0 inc_id assumps first0 first1 lb_id pmin p1 b' p2 []); try assumption. intros x [].
  - rewrite Es. reflexivity.
  - reflexivity.
Qed.
Print Assumptions C74_iterate.
Theorem C74_last : forall n cls rs dec_lb s sb w c0 c1 nv p L done b lb f i d inc out0 inc_id,
  Forall obj_ok rs -> Forall obj_fits rs -> inst_vars n cls rs -> bf_reaches n cls rs dec_lb s ->
  let k0 := init_chk cls (build_objs 0 rs) in
  bf_at s = BoYielded sb -> bf_s s = mkBr (mkRst [c0; c1] nv p L done) b lb f i d None ->
  witness_of [c0; c1] n p sb w ->
  inc = icost (co_obj c0) (asg_of sb) -> icost (co_obj c1) (asg_of sb) <= dec_lb ->
  several c0 -> several c1 -> (forall c, In c (for_sol [c0; c1] sb) -> low_pre c) -> pe_offset (co_enc c1) = obj_lb (co_obj c1) ->
  inc_pre (bf_s s) c0 nv inc out0 inc_id ->
  exists pmin p1 id p2, certify_pmin_cut (for_sol [c0; c1] sb) w n p = Some (pmin, p1) /\
    bos_cut (co_enc c0) inc lb inc_id (bs_cut b) (bs_lb b) pmin p1 = Some (id, p2) /\
    bf_step k0 n cls dec_lb s (mkBf BoDone (mkBr (mkRst [c0; c1] nv p2 L (sb :: done)) b lb f i d (Some id)) (bf_front s)) /\
    exists C, In (id, C) (k_all (kof k0 p2)) /\ contradictory C.
Proof.
  intros n cls rs dec_lb s sb w c0 c1 nv p L done b lb f i d inc out0 inc_id Hok Hfit Hv H k0 Ea Es Hw Ei Hl S0 S1 Hlow Hoff Hinc.
  destruct (reaches_inv n cls rs dec_lb s Hok Hfit Hv H) as (o0 & o1 & A1 & A2 & A3 & Elb & I & W). fold k0 in I, W.
  pose proof (bv_at _ _ _ _ _ _ _ _ I) as P. rewrite Ea in P. destruct P as ((Hb & Hd) & _). pose proof (bv_two _ _ _ _ _ _ _ _ I) as E2. pose proof (bv_ok _ _ _ _ _ _ _ _ I) as BO.
  rewrite Es in Hd, E2. cbn [br_r r_cs r_done] in Hd, E2. assert (E1 : co_obj c1 = o1) by (cbn [map] in E2; congruence).
  assert (Hd' : forall d, In d done -> better [c0; c1] sb d) by (intros x X; apply (better_two o0 o1 [c0; c1] sb x E2); exact (Hd x X)).
  assert (Hdl : icost (co_obj c1) (asg_of sb) <= pe_offset (co_enc c1)) by (rewrite Hoff, E1, <- Elb, <- E1; exact Hl).
  destruct (finish_ok k0 n (inst_sol n cls) (bf_s s) c0 c1 nv p L done b lb f i d sb w inc out0 inc_id (fun b Hb => proj1 Hb) Es BO Hb Hd' Hw Ei Hdl S0 S1 Hlow Hoff Hinc) as (pmin & p1 & id & p2 & Ec & Eb & _ & B2).
  exists pmin, p1, id, p2. split; [exact Ec|]. split; [exact Eb|]. split; [|exact (bo_end _ _ _ _ B2 id eq_refl)]. destruct s as [at_ s F]. cbn [bf_at bf_s bf_front] in *. subst at_. apply (bf_finish k0 n cls dec_lb s _ F sb).
  - exact (be_finish k0 n (inst_sol n cls) s c0 c1 nv p L done b lb f i d sb w inc out0 inc_id pmin p1 id p2 Es Hb Hd' Hw Ei Hdl S0 S1 Hlow Hoff Hinc Ec Eb).
  - rewrite Es. reflexivity.
  - discriminate.
Qed.
Print Assumptions C74_last.

(** ** Example: minimise x0 + x1 and x2 + x3 subject to x0 or x2
    The encodings define x4 and x5 (x0 + x1 is at least 1, 2) and x6 and x7 (x2 + x3 is at least 1, 2), and hand six clauses to the
    solver. The first solution found has the costs (0, 2), it is improved to (0, 1), which is yielded; then (2, 0) is found, improved to
    (1, 0) and yielded, and the run ends with the contradiction. *)
(** the encodings before the clauses have been handed to the solver *)
Definition bg_e (x m : nat) : penc := mkPenc 0 m true (fun _ => None) (pe_details (bx_e x m)) S (pe_extend (bx_e x m)).
Definition bg_c (x i m : nat) : cobj := mkCobj (bg_e x m) (bx_o x i) None 0.
Definition bg_cs (m : nat) : list cobj := [bg_c 0 0 (min m 2); bg_c 2 1 (m - 2)].
Lemma bg_fine : forall es m, enc_fine es (bx_cs m) -> enc_fine es (bg_cs m).
Proof.
  intros es m (F & O).
  assert (Q : forall x i k, cobj_ok es (bx_c x i k) -> cobj_ok es (bg_c x i k)).
  { intros x i k (us & [H1 H2 H3 H4 H5]). exists us. constructor; [exact H1|exact H2|exact H3|exact H4|]. intros _ _ l ls X. discriminate. }
  assert (Q2 : forall x i k, outs_mean es (bx_c x i k) -> outs_mean es (bg_c x i k)).
  { intros x i k H a Ha Hl. split; [intros y ys _ X; discriminate|]. exact (proj2 (H a Ha Hl)). }
  unfold bx_cs in F, O. inversion F as [|c0 l F0 F1]. inversion F1 as [|c1 l1 F2 F3]. subst. split.
  - constructor; [apply Q; exact F0|]. constructor; [apply Q; exact F2|constructor].
  - intros c [<-|[<-|[]]]; apply Q2; apply O; [left|right; left]; reflexivity.
Qed.
Lemma bg_out_step : forall m, m < 4 -> run_step bx_k 3 (inst_sol 3 bx_cls) (mkRst (bg_cs m) (4 + m) (bx_outs m) [] []) (mkRst (bg_cs (S m)) (4 + S m) (bx_outs (S m)) [] []).
Proof.
  intros m Hm. replace (4 + S m) with (S (4 + m)) by lia. apply (ev_output bx_k 3 (inst_sol 3 bx_cls) (bg_cs m) (bg_cs (S m)) (4 + m) (bx_outs m) [] [] (bx_ts (bx_x (S m))) (Z.of_nat (bx_v (S m)))).
  - apply bx_wf.
  - unfold bx_v, bx_x, bx_ts, wtot. cbn [map fst fold_right]. destruct (Nat.leb_spec (S m) 2); cbn; lia.
  - intros t [<-|[<-|[]]]; eexists; (split; [reflexivity|]); apply (inst_summand 3); try (intros b Hb; exact (proj1 Hb)); try lia;
      try (unfold bx_x; destruct (S m <=? 2); cbn; lia); assert (E : ps_vmap (bx_outs m) = []) by (clear; induction m as [|m IH]; [reflexivity|exact IH]); rewrite E; intros [].
  - reflexivity.
  - intros b x Hb. exact (bx_ext m b x Hm Hb).
  - rewrite rm_nil. apply bg_fine. apply bx_fine; [lia|]. intros v Hv. exact (bx_defs (S m) v Hm Hv).
Qed.
(** the clauses for the solver, and the definitions they follow from *)
Definition bg_cls : list (clause * nat) := [([neg 0; pos 4], 2); ([neg 1; pos 4], 2); ([neg 0; neg 1; pos 5], 4); ([neg 2; pos 6], 6); ([neg 3; pos 6], 6); ([neg 2; neg 3; pos 7], 8)].
Definition bg_line (p : pst) (c : clause * nat) : pst := let '(id, p) := wr_id (SRup (clause_pb (fst c)) [CAbs (snd c)]) p in add_cert (fst c) id p.
Definition bg_hand (m : nat) : pst := fold_left bg_line (firstn m bg_cls) (bx_outs 4).
Definition bg_p0 : pst := bg_hand 6.
Definition bg_core : step := SRup (lb_clause (map axiom [pos 4; pos 6])) [CAbs 1; CAbs 2; CAbs 6].
Definition bg_p1 : pst := snd (wr_id bg_core bg_p0).
Definition bg_p2 : pst := match linsu_certify (bx_e 2 2) 2 (bx_o 2 1) [neg 4; neg 5] 1 [pos 4; pos 6] 16 bg_p1 with Some (_, p) => p | None => bg_p1 end.
Definition bg_p3 : pst := match certify_pmin_cut (for_sol (bx_cs 4) bx_a) bx_a 3 bg_p2 with Some (_, p) => p | None => bg_p1 end.
Definition bg_p4 : pst := match bos_step (bx_e 0 2) (bx_e 2 2) (bx_o 2 1) 0 1 0 None (Some 17) [neg 4; neg 5] 20 (mkBst None None) bg_p3 with Some (_, p) => p | None => bg_p1 end.
Definition bg_p5 : pst := match certify_pmin_cut (for_sol (bx_cs 4) bx_b) bx_b 3 bg_p4 with Some (_, p) => p | None => bg_p1 end.
Definition bg_p6 : pst := match bos_cut (bx_e 0 2) 1 1 None (Some 20) (Some 22) 27 bg_p5 with Some (_, p) => p | None => bg_p1 end.
Example bg_search_eq : linsu_certify (bx_e 2 2) 2 (bx_o 2 1) [neg 4; neg 5] 1 [pos 4; pos 6] 16 bg_p1 = Some (17, bg_p2). Proof. vm_compute. reflexivity. Qed.
Example bg_cut_a_eq : certify_pmin_cut (for_sol (bx_cs 4) bx_a) bx_a 3 bg_p2 = Some (20, bg_p3). Proof. vm_compute. reflexivity. Qed.
Example bg_step_a_eq : bos_step (bx_e 0 2) (bx_e 2 2) (bx_o 2 1) 0 1 0 None (Some 17) [neg 4; neg 5] 20 (mkBst None None) bg_p3 = Some (mkBst (Some 20) (Some 22), bg_p4). Proof. vm_compute. reflexivity. Qed.
Example bg_cut_b_eq : certify_pmin_cut (for_sol (bx_cs 4) bx_b) bx_b 3 bg_p4 = Some (27, bg_p5). Proof. vm_compute. reflexivity. Qed.
Example bg_fin_eq : bos_cut (bx_e 0 2) 1 1 None (Some 20) (Some 22) 27 bg_p5 = Some (29, bg_p6). Proof. vm_compute. reflexivity. Qed.
Definition bg_s0 : brst := bx_state (bx_cs 4) 8 bg_p0.
Definition bg_s1 : brst := bx_state (bx_cs 4) 8 bg_p1.
Definition bg_s2 : brst := mkBr (mkRst (bx_cs 4) 8 bg_p2 [] []) (mkBst None None) 0 None None (Some ([neg 4; neg 5], 1, pos 6, 17)) None.
Definition bg_s3 : brst := mkBr (mkRst (bx_cs 4) 8 bg_p4 [24] [bx_a]) (mkBst (Some 20) (Some 22)) 1 (Some (pos 4)) None None None.
Definition bg_s4 : brst := mkBr (mkRst (bx_cs 4) 8 bg_p6 [24] [bx_b; bx_a]) (mkBst (Some 20) (Some 22)) 1 (Some (pos 4)) None None (Some 29).
(** the definitions and the clauses are in the proof and in the solver *)
Definition bg_has (p : pst) : Prop :=
  (forall x, x = 0 \/ x = 2 -> In (2 * (x + 1), wif_def (bx_ts x) (axiom (pos (4 + x))) 1) (k_all (kof bx_k p)) /\ In (S (2 * (x + 1)), wonly_def (bx_ts x) (axiom (pos (4 + x))) 1) (k_all (kof bx_k p)) /\
     In (2 * (x + 2), wif_def (bx_ts x) (axiom (pos (5 + x))) 2) (k_all (kof bx_k p)) /\ In (S (2 * (x + 2)), wonly_def (bx_ts x) (axiom (pos (5 + x))) 2) (k_all (kof bx_k p))) /\
  forall c, In c (map fst bg_cls) -> exists id, In (c, id) (ps_reg p).
Definition bg_regs (p : pst) : Prop := forallb (fun c => existsb (fun e => if list_eq_dec lit_eq_dec (fst e) c then true else false) (ps_reg p)) (map fst bg_cls) = true.
Lemma bg_regs_in : forall p, bg_regs p -> forall c, In c (map fst bg_cls) -> exists id, In (c, id) (ps_reg p).
Proof.
  intros p H c Hc. pose proof (proj1 (forallb_forall _ _) H c Hc) as X. apply existsb_exists in X. destruct X as ([c' id] & Hin & E). cbn [fst] in E. destruct (list_eq_dec lit_eq_dec c' c) as [->|]; [|discriminate]. exists id. exact Hin.
Qed.
Lemma bg_has0 : bg_has bg_p0. Proof. split; [intros x [-> | ->]; vm_compute; tauto|apply bg_regs_in; vm_compute; reflexivity]. Qed.
Lemma bg_has1 : bg_has bg_p1. Proof. split; [intros x [-> | ->]; vm_compute; tauto|apply bg_regs_in; vm_compute; reflexivity]. Qed.
Lemma bg_has2 : bg_has bg_p2. Proof. split; [intros x [-> | ->]; vm_compute; tauto|apply bg_regs_in; vm_compute; reflexivity]. Qed.
Lemma bg_has4 : bg_has bg_p4. Proof. split; [intros x [-> | ->]; vm_compute; tauto|apply bg_regs_in; vm_compute; reflexivity]. Qed.
Lemma bg_has6 : bg_has bg_p6. Proof. split; [intros x [-> | ->]; vm_compute; tauto|apply bg_regs_in; vm_compute; reflexivity]. Qed.
Lemma bg_works : forall nv p L D, bg_has p -> enc_works bx_k bx_cls (mkRst (bx_cs 4) nv p L D).
Proof.
  intros nv p L D (Hd & Hc) c v as_ Hin E. cbn [r_cs r_p] in *.
  assert (Q : forall x, x = 0 \/ x = 2 -> forall i, pe_enforce_ub (bx_e x 2) v = Some as_ ->
    (forall w, models_handed w p -> lits_true w as_ -> icost (bx_o x i) w <= v) /\
    (forall a, (forall e, In e (k_all (kof bx_k p)) -> lb_holds a (snd e)) -> icost (bx_o x i) (on_solver a) <= v -> lits_true (on_solver a) as_)).
  { intros x Hx i Ee. split.
    - intros w Hm T. cbn [bx_e pe_enforce_ub Nat.eqb] in Ee.
      assert (M1 : clause_true w [neg x; pos (4 + x)] = true) by (destruct (Hc [neg x; pos (4 + x)]) as (id & Hi); [destruct Hx as [-> | ->]; cbn; tauto|exact (Hm _ _ Hi)]).
      assert (M2 : clause_true w [neg (S x); pos (4 + x)] = true) by (destruct (Hc [neg (S x); pos (4 + x)]) as (id & Hi); [destruct Hx as [-> | ->]; cbn; tauto|exact (Hm _ _ Hi)]).
      assert (M3 : clause_true w [neg x; neg (S x); pos (5 + x)] = true) by (destruct (Hc [neg x; neg (S x); pos (5 + x)]) as (id & Hi); [destruct Hx as [-> | ->]; cbn; tauto|exact (Hm _ _ Hi)]).
      cbn in M1, M2, M3. unfold lit_true in M1, M2, M3. cbn in M1, M2, M3. cbn. unfold lit_true. cbn.
      assert (T4 : v = 0 -> w (4 + x) = false) by (intros ->; injection Ee as <-; specialize (T _ (or_introl eq_refl)); unfold lit_true in T; cbn in T; cbn; destruct (w (S (S (S (S x))))); [discriminate|reflexivity]).
      assert (T5 : v <= 1 -> w (5 + x) = false).
      { intros Hv. assert (X : lit_true w (neg (5 + x)) = true) by (destruct v as [|[|v]]; [injection Ee as <-; apply T; right; left; reflexivity|injection Ee as <-; apply T; left; reflexivity|lia]).
        unfold lit_true in X. cbn in X. cbn. destruct (w (S (S (S (S (S x)))))); [discriminate|reflexivity]. }
      cbn in T4, T5. destruct (w x), (w (S x)); cbn in *; try lia.
      + destruct v as [|[|v]]; [exfalso; rewrite (T5 ltac:(lia)) in M3; discriminate|exfalso; rewrite (T5 ltac:(lia)) in M3; discriminate|lia].
      + destruct v as [|v]; [exfalso; rewrite (T4 eq_refl) in M1; discriminate|lia].
      + destruct v as [|v]; [exfalso; rewrite (T4 eq_refl) in M2; discriminate|lia].
    - intros a Ha Hl. destruct (Hd x Hx) as (_ & D1 & _ & D2). apply Ha in D1. apply Ha in D2. cbn [snd] in D1, D2. unfold lb_holds in D1, D2. cbn in D1, D2, Hl. unfold ax_true in D1, D2. unfold lit_true, on_solver in Hl. cbn in D1, D2, Hl.
      intros l Hin2. unfold lit_true, on_solver. destruct v as [|[|v]]; cbn [bx_e pe_enforce_ub Nat.eqb] in Ee; injection Ee as <-; cbn in Hin2; decompose [or] Hin2; try contradiction; subst l; cbn;
        destruct (a (PVs x)), (a (PVs (S x))), (a (PVs (S (S (S (S x)))))), (a (PVs (S (S (S (S (S x))))))); cbn in *; try reflexivity; lia. }
  destruct Hin as [<-|[<-|[]]]; cbn [bx_c co_enc co_obj] in *.
  - destruct (Q 0 (or_introl eq_refl) 0 E) as (Q1 & Q2). split; [intros w _ Hm T; exact (Q1 w Hm T)|exact Q2].
  - destruct (Q 2 (or_intror eq_refl) 1 E) as (Q1 & Q2). split; [intros w _ Hm T; exact (Q1 w Hm T)|exact Q2].
Qed.
Lemma bg_works_early : forall m nv p L D, enc_works bx_k bx_cls (mkRst (bg_cs m) nv p L D).
Proof. intros m nv p L D c v as_ [<-|[<-|[]]] E; discriminate. Qed.
Lemma bg_derive : forall cl i C k, id_get (k_all k) (k_next k) (CAbs i) = Some C -> (forall a, (forall l, In l cl -> ax_true a (axiom l) = false) -> ~ lb_holds a C) ->
  step_valid k (SRup (clause_pb cl) [CAbs i]).
Proof.
  intros cl i C k E H. exists [C]. split; [cbn [map opt_all]; rewrite E; reflexivity|]. apply (rup_two _ (map axiom cl) []); [intros m []|]. exists C. split; [left; reflexivity|].
  intros a Ha _. apply H. intros l Hl. apply Ha. apply in_map. exact Hl.
Qed.
Definition bg_go := bf_runs bx_k 3 bx_cls 0 (mkBf BoSearch (bos_start (start_run 3 bx_cls (bg_cs 0)) 0) []).
Lemma bg_step_line : forall m p c i C, bg_go (mkBf BoSearch (bos_start (mkRst (bg_cs m) 8 p [] []) 0) []) -> id_get (k_all (kof bx_k p)) (k_next (kof bx_k p)) (CAbs i) = Some C ->
  (forall a, (forall l, In l c -> ax_true a (axiom l) = false) -> ~ lb_holds a C) ->
  (forall v, In v (step_vars (SRup (clause_pb c) [CAbs i])) -> match v with PVs x => x < 8 | PVp m => m < ps_nextvar p end) ->
  In (ps_next p, clause_pb c) (k_all (kof bx_k (snd (wr_id (SRup (clause_pb c) [CAbs i]) p)))) ->
  bg_go (mkBf BoSearch (bos_start (mkRst (bg_cs m) 8 (bg_line p (c, i)) [] []) 0) []).
Proof.
  intros m p c i C H Eg Hc Hv Hin.
  assert (H1 : bg_go (mkBf BoSearch (bos_start (mkRst (bg_cs m) 8 (snd (wr_id (SRup (clause_pb c) [CAbs i]) p)) [] []) 0) [])).
  { apply (bfr_step _ _ _ _ _ _ _ H); [|apply bg_works_early]. apply bf_work; [|reflexivity]. apply be_step; [|reflexivity].
    apply (ev_derive bx_k 3 (inst_sol 3 bx_cls) (bg_cs m) 8 p [] [] (SRup (clause_pb c) [CAbs i]) false); [exact Logic.I|exact (bg_derive c i C _ Eg Hc)|exact Hv]. }
  apply (bfr_step _ _ _ _ _ _ _ H1); [|apply bg_works_early]. apply bf_work; [|reflexivity]. apply be_step; [|reflexivity].
  change (bg_line p (c, i)) with (add_cert c (ps_next p) (snd (wr_id (SRup (clause_pb c) [CAbs i]) p))). apply (ev_clause bx_k 3 _ _ _ _ _ _ c (ps_next p) (clause_pb c) Hin). split; reflexivity.
Qed.
Lemma bg_run_outs : forall m, m <= 4 -> bg_go (mkBf BoSearch (bos_start (mkRst (bg_cs m) (4 + m) (bx_outs m) [] []) 0) []).
Proof.
  induction m as [|m IH]; intros Hm; [apply bfr_refl; apply bg_works_early|]. apply (bfr_step _ _ _ _ _ _ _ (IH ltac:(lia))); [|apply bg_works_early].
  apply bf_work; [|reflexivity]. apply be_step; [apply bg_out_step; lia|reflexivity].
Qed.
Ltac bg_hand_one C := eapply (bg_step_line 4 _ _ _ C);
  [|vm_compute; reflexivity
   |intros a Ha H; unfold lb_holds in H; cbn in H; unfold ax_true in *;
    pose proof (Ha _ (or_introl eq_refl)) as A0; pose proof (Ha _ (or_intror (or_introl eq_refl))) as A1; try pose proof (Ha _ (or_intror (or_intror (or_introl eq_refl)))) as A2; cbn in *;
    destruct (a (PVs 0)), (a (PVs 1)), (a (PVs 2)), (a (PVs 3)), (a (PVs 4)), (a (PVs 5)), (a (PVs 6)), (a (PVs 7)); try discriminate; cbn in H; lia
   |intros v Hv; vm_compute in Hv; decompose [or] Hv; try contradiction; subst v; cbn; lia
   |vm_compute; tauto].
Lemma bg_run_hand : bg_go (mkBf BoSearch (bos_start (mkRst (bg_cs 4) 8 bg_p0 [] []) 0) []).
Proof.
  change bg_p0 with (bg_line (bg_line (bg_line (bg_line (bg_line (bg_line (bx_outs 4) ([neg 0; pos 4], 2)) ([neg 1; pos 4], 2)) ([neg 0; neg 1; pos 5], 4)) ([neg 2; pos 6], 6)) ([neg 3; pos 6], 6)) ([neg 2; neg 3; pos 7], 8)).
  bg_hand_one (wif_def (bx_ts 2) (axiom (pos 7)) 2). bg_hand_one (wif_def (bx_ts 2) (axiom (pos 6)) 1). bg_hand_one (wif_def (bx_ts 2) (axiom (pos 6)) 1).
  bg_hand_one (wif_def (bx_ts 0) (axiom (pos 5)) 2). bg_hand_one (wif_def (bx_ts 0) (axiom (pos 4)) 1). bg_hand_one (wif_def (bx_ts 0) (axiom (pos 4)) 1).
  exact (bg_run_outs 4 ltac:(lia)).
Qed.
Lemma bg_defs0 : forall v, 1 <= v <= 4 -> exists x u, (x = 0 \/ x = 2) /\ v = x + u /\ 1 <= u <= 2 /\
    In (2 * v, wif_def (bx_ts x) (axiom (pos (3 + v))) (Z.of_nat u)) (k_all (kof bx_k bg_p0)) /\ In (S (2 * v), wonly_def (bx_ts x) (axiom (pos (3 + v))) (Z.of_nat u)) (k_all (kof bx_k bg_p0)).
Proof.
  intros v Hv. exists (bx_x v), (bx_v v). unfold bx_v, bx_x. assert (v = 1 \/ v = 2 \/ v = 3 \/ v = 4) as [-> | [-> | [-> | ->]]] by lia;
    (split; [cbn; tauto|]); (split; [cbn; lia|]); (split; [cbn; lia|]); (split; vm_compute; tauto).
Qed.
Lemma bg_run0 : bg_go (mkBf BoSearch bg_s0 []).
Proof.
  apply (bfr_step _ _ _ _ _ _ _ bg_run_hand); [|apply bg_works; exact bg_has0]. apply bf_work; [|reflexivity]. apply be_step; [|reflexivity].
  apply (ev_encoding bx_k 3 (inst_sol 3 bx_cls) (bg_cs 4) (bx_cs 4)); [reflexivity|intros b x _; reflexivity|]. rewrite rm_nil. apply bx_fine; [lia|exact bg_defs0].
Qed.
(** the proof events *)
Lemma bg_ev1 : bos_event bx_k 3 (inst_sol 3 bx_cls) bg_s0 bg_s1.
Proof.
  refine (be_step bx_k 3 (inst_sol 3 bx_cls) (mkRst (bx_cs 4) 8 bg_p0 [] []) (mkRst (bx_cs 4) 8 bg_p1 [] []) (mkBst None None) 0 None None None _ (eq_refl (@nil assignment))). apply (ev_derive bx_k 3 (inst_sol 3 bx_cls) (bx_cs 4) 8 bg_p0 [] [] bg_core false).
  - exact Logic.I.
  - exists [clause_pb [pos 0; pos 2]; wif_def (bx_ts 0) (axiom (pos 4)) 1; wif_def (bx_ts 2) (axiom (pos 6)) 1].
    split; [vm_compute; reflexivity|]. apply (rup_two _ _ [axiom (neg 0); axiom (neg 2)]).
    + intros m [<-|[<-|[]]].
      * exists (wif_def (bx_ts 0) (axiom (pos 4)) 1). split; [cbn; tauto|]. intros a Ha H. pose proof (Ha (axiom (pos 4)) (or_introl eq_refl)) as A.
        unfold lb_holds in H. cbn in H. unfold ax_true in *. cbn in *. destruct (a (PVs 4)); [discriminate|]. destruct (a (PVs 0)), (a (PVs 1)); cbn in H; try reflexivity; lia.
      * exists (wif_def (bx_ts 2) (axiom (pos 6)) 1). split; [cbn; tauto|]. intros a Ha H. pose proof (Ha (axiom (pos 6)) (or_intror (or_introl eq_refl))) as A.
        unfold lb_holds in H. cbn in H. unfold ax_true in *. cbn in *. destruct (a (PVs 6)); [discriminate|]. destruct (a (PVs 2)), (a (PVs 3)); cbn in H; try reflexivity; lia.
    + exists (clause_pb [pos 0; pos 2]). split; [cbn; tauto|]. intros a _ Hm H. pose proof (Hm _ (or_introl eq_refl)) as A. pose proof (Hm _ (or_intror (or_introl eq_refl))) as B.
      unfold lb_holds in H. cbn in H. unfold ax_true in *. cbn in *. destruct (a (PVs 0)), (a (PVs 2)); try discriminate. cbn in H. lia.
  - intros v Hv. vm_compute in Hv. destruct Hv as [<-|[<-|[]]]; lia.
Qed.
Lemma bg_chain : forall p x, (x = 0 \/ x = 2) -> bg_has p -> chain (kof bx_k p) (bx_e x 2) (bx_ts x) 1 [pos (4 + x); pos (5 + x)].
Proof. intros p x Hx (Hd & _). destruct (Hd x Hx) as (D1 & D2 & D3 & D4). apply bx_chain; assumption. Qed.
Lemma bg_ev2 : bos_event bx_k 3 (inst_sol 3 bx_cls) bg_s1 bg_s2.
Proof.
  apply (be_dec bx_k 3 (inst_sol 3 bx_cls) (bx_c 0 0 2) (bx_c 2 1 2) 8 bg_p1 [] [] (mkBst None None) 0 None None None 2 [neg 4; neg 5] 1 (pos 6) [pos 4; pos 6] 16 17 bg_p2).
  - constructor.
    + reflexivity.
    + repeat constructor; cbn; intuition discriminate.
    + intros b [<-|[<-|[]]]; cbn; lia.
    + exists (bx_ts 2), [pos 7], [neg 4], [pos 6]. split; [apply bx_wf|]. split; [exact (bg_chain bg_p1 2 (or_intror eq_refl) bg_has1)|].
      split; [repeat constructor; cbn; intuition discriminate|]. split; [intros o [<-|[<-|[]]]; cbn; lia|]. split; [intros b [<-|[<-|[]]]; cbn; intuition discriminate|].
      split; [cbn; lia|]. split; [reflexivity|]. split; [apply subl_take; apply subl_nil|]. split; [apply subl_take; apply subl_nil|]. split; [discriminate|]. split; [discriminate|].
      exists (lb_clause (map axiom [pos 4; pos 6])). split; [vm_compute; tauto|]. apply clause_proper. repeat constructor; cbn; intuition discriminate.
  - exact bg_search_eq.
  - intros [].
Qed.
Lemma bg_ev3 : bos_event bx_k 3 (inst_sol 3 bx_cls) bg_s2 bg_s3.
Proof.
  apply (be_iterate bx_k 3 (inst_sol 3 bx_cls) bg_s2 (bx_c 0 0 2) (bx_c 2 1 2) 8 bg_p2 [] [] (mkBst None None) 0 None None bx_a bx_a 0 1 (pos 4) None [neg 4; neg 5] (pos 4) (pos 6) 17 20 bg_p3 (mkBst (Some 20) (Some 22)) bg_p4 [24]).
  - reflexivity.
  - exact bx_sol_a.
  - intros d [].
  - split; [reflexivity|]. intros f Hf. exists f. split; [exact Hf|]. intros l. reflexivity.
  - reflexivity.
  - reflexivity.
  - cbn. lia.
  - apply bx_several.
  - apply bx_several.
  - apply bx_low.
  - reflexivity.
  - constructor; [reflexivity|cbn; lia|cbn; lia|cbn; lia].
  - constructor.
    + cbn. lia.
    + exists (bx_ts 0), [pos 5]. split; [apply bx_wf|]. split; [exact (bg_chain bg_p2 0 (or_introl eq_refl) bg_has2)|].
      split; [repeat constructor; cbn; intuition discriminate|]. split; [reflexivity|]. cbn. intuition discriminate.
    + exists (bx_ts 2), [pos 7]. split; [apply bx_wf|]. split; [exact (bg_chain bg_p2 2 (or_intror eq_refl) bg_has2)|].
      split; [repeat constructor; cbn; intuition discriminate|reflexivity].
    + cbn. lia.
    + cbn. lia.
  - exact bg_cut_a_eq.
  - exact bg_step_a_eq.
  - intros x [<-|[]]. split; [vm_compute; lia|]. split; discriminate.
Qed.
Lemma bg_ev4 : bos_event bx_k 3 (inst_sol 3 bx_cls) bg_s3 bg_s4.
Proof.
  apply (be_finish bx_k 3 (inst_sol 3 bx_cls) bg_s3 (bx_c 0 0 2) (bx_c 2 1 2) 8 bg_p4 [24] [bx_a] (mkBst (Some 20) (Some 22)) 1 (Some (pos 4)) None None bx_b bx_b 1 (pos 4) None 27 bg_p5 29 bg_p6).
  - reflexivity.
  - exact bx_sol_b.
  - intros d [<-|[]]. exists (bx_c 2 1 2). split; [right; left; reflexivity|]. vm_compute. lia.
  - split; [reflexivity|]. intros f Hf. exists f. split; [exact Hf|]. intros l. reflexivity.
  - reflexivity.
  - cbn. lia.
  - apply bx_several.
  - apply bx_several.
  - apply bx_low.
  - reflexivity.
  - constructor; [reflexivity| |reflexivity|intros _ X; contradiction X; reflexivity]. intros _. split; [cbn; lia|]. exists (Some 2), 3. reflexivity.
  - exact bg_cut_b_eq.
  - exact bg_fin_eq.
Qed.
(** the solutions of the solver *)
Definition bg_w1 : assignment := [Some false; Some false; Some true; Some true; Some false; Some false; Some true; Some true].
Definition bg_w2 : assignment := [Some false; Some false; Some true; Some false; Some false; Some false; Some true; Some false].
Definition bg_w3 : assignment := [Some true; Some true; Some false; Some false; Some true; Some true; Some false; Some false].
Definition bg_w4 : assignment := [Some true; Some false; Some false; Some false; Some true; Some false; Some false; Some false].
Definition bg_total (b : assignment) : bool := (length b =? 4) && forallb (fun x => match x with Some _ => true | None => false end) b.
Lemma bg_answer : forall w cs nv p L D, bg_total (truncate w 3) = true -> clause_true (asg_of w) [pos 0; pos 2] = true -> forallb (fun e => clause_true (asg_of w) (fst e)) (ps_reg p) = true ->
  solver_sat 3 bx_cls (mkRst cs nv p L D) w.
Proof.
  intros w cs nv p L D Ht Hs Hm. split; [|split].
  - unfold bg_total in Ht. apply andb_true_iff in Ht. destruct Ht as (H1 & H2). apply Nat.eqb_eq in H1. split; [exact H1|]. intros x Hx ->. pose proof (proj1 (forallb_forall _ _) H2 _ Hx). discriminate.
  - intros c [<-|[]]. exact Hs.
  - intros c id Hc. exact (proj1 (forallb_forall _ _) Hm (c, id) Hc).
Qed.
Lemma bg_run_a : bg_go (mkBf (BoYielded bx_a) bg_s2 [mkNd [0%Z; 1%Z] [bx_a]]).
Proof.
  assert (H1 : bg_go (mkBf (BoInc bg_w1) bg_s0 [])).
  { apply (bfr_step _ _ _ _ _ _ _ bg_run0); [|apply bg_works; exact bg_has0]. apply bf_found. apply bg_answer; vm_compute; reflexivity. }
  assert (H2 : bg_go (mkBf (BoDec 0 bg_w1) bg_s0 [])).
  { apply (bfr_step _ _ _ _ _ _ _ H1); [|apply bg_works; exact bg_has0]. apply (bf_inc_done bx_k 3 bx_cls 0 bg_s0 [] bg_w1 (bx_c 0 0 2) (bx_c 2 1 2)); [reflexivity|left; vm_compute; lia]. }
  assert (H3 : bg_go (mkBf (BoDec 0 bg_w2) bg_s0 [])).
  { apply (bfr_step _ _ _ _ _ _ _ H2); [|apply bg_works; exact bg_has0]. apply (bf_dec bx_k 3 bx_cls 0 bg_s0 [] 0 bg_w1 (bx_c 0 0 2) (bx_c 2 1 2) [neg 4; neg 5] [neg 7]); [reflexivity|vm_compute; lia|reflexivity|vm_compute; reflexivity| |].
    - apply bg_answer; vm_compute; reflexivity.
    - intros l [<-|[<-|[<-|[]]]]; reflexivity. }
  assert (H4 : bg_go (mkBf (BoDec 0 bg_w2) bg_s1 [])).
  { apply (bfr_step _ _ _ _ _ _ _ H3); [|apply bg_works; exact bg_has1]. apply bf_work; [exact bg_ev1|exact (eq_refl (@nil assignment))]. }
  assert (H5 : bg_go (mkBf (BoDec 0 bg_w2) bg_s2 [])).
  { apply (bfr_step _ _ _ _ _ _ _ H4); [|apply bg_works; exact bg_has2]. apply bf_work; [exact bg_ev2|exact (eq_refl (@nil assignment))]. }
  apply (bfr_step _ _ _ _ _ _ _ H5); [|apply bg_works; exact bg_has2].
  apply (bf_yield bx_k 3 bx_cls 0 bg_s2 [] 0 bg_w2 (bx_c 0 0 2) (bx_c 2 1 2) [0%Z; 1%Z]); [reflexivity| |vm_compute; reflexivity].
  right. exists [neg 4; neg 5], [neg 6; neg 7]. split; [reflexivity|]. split; [vm_compute; reflexivity|]. exists [neg 4; neg 6], 16, (lb_clause (map axiom [pos 4; pos 6])).
  split; [intros l [<-|[<-|[]]]; cbn; tauto|]. split; [vm_compute; tauto|]. split; reflexivity.
Qed.
Definition bg_end : bfstate := mkBf BoDone bg_s4 [mkNd [0%Z; 1%Z] [bx_a]; mkNd [1%Z; 0%Z] [bx_b]].
Lemma bg_run : bg_go bg_end.
Proof.
  assert (H1 : bg_go (mkBf BoSearch bg_s3 [mkNd [0%Z; 1%Z] [bx_a]])).
  { apply (bfr_step _ _ _ _ _ _ _ bg_run_a); [|apply bg_works; exact bg_has4]. apply bf_iterate; [exact bg_ev3|exact (eq_refl [bx_a])|exact (eq_refl (@None nat))]. }
  assert (H2 : bg_go (mkBf (BoInc bg_w3) bg_s3 [mkNd [0%Z; 1%Z] [bx_a]])).
  { apply (bfr_step _ _ _ _ _ _ _ H1); [|apply bg_works; exact bg_has4]. apply bf_found. apply bg_answer; vm_compute; reflexivity. }
  assert (H3 : bg_go (mkBf (BoInc bg_w4) bg_s3 [mkNd [0%Z; 1%Z] [bx_a]])).
  { apply (bfr_step _ _ _ _ _ _ _ H2); [|apply bg_works; exact bg_has4]. apply (bf_inc bx_k 3 bx_cls 0 bg_s3 _ bg_w3 (bx_c 0 0 2) (bx_c 2 1 2) [neg 5]); [reflexivity|vm_compute; lia|vm_compute; reflexivity| |].
    - apply bg_answer; vm_compute; reflexivity.
    - intros l [<-|[]]; reflexivity. }
  assert (H4 : bg_go (mkBf (BoDec 1 bg_w4) bg_s3 [mkNd [0%Z; 1%Z] [bx_a]])).
  { apply (bfr_step _ _ _ _ _ _ _ H3); [|apply bg_works; exact bg_has4]. apply (bf_inc_done bx_k 3 bx_cls 0 bg_s3 _ bg_w4 (bx_c 0 0 2) (bx_c 2 1 2)); [reflexivity|left; vm_compute; lia]. }
  assert (H5 : bg_go (mkBf (BoYielded bx_b) bg_s3 [mkNd [0%Z; 1%Z] [bx_a]; mkNd [1%Z; 0%Z] [bx_b]])).
  { apply (bfr_step _ _ _ _ _ _ _ H4); [|apply bg_works; exact bg_has4].
    apply (bf_yield bx_k 3 bx_cls 0 bg_s3 [mkNd [0%Z; 1%Z] [bx_a]] 1 bg_w4 (bx_c 0 0 2) (bx_c 2 1 2) [1%Z; 0%Z]); [reflexivity|left; vm_compute; lia|vm_compute; reflexivity]. }
  apply (bfr_step _ _ _ _ _ _ _ H5); [|apply bg_works; exact bg_has6]. apply bf_finish; [exact bg_ev4|exact (eq_refl [bx_b; bx_a])|cbn [bg_s4 br_end]; discriminate].
Qed.
Lemma bg_ok : Forall obj_ok bx_rs /\ Forall obj_fits bx_rs.
Proof.
  split; (constructor; [|constructor; [|constructor]]).
  - split; [left; repeat constructor; cbn; intuition discriminate|right; eexists; split; [left; reflexivity|discriminate]].
  - split; [left; repeat constructor; cbn; intuition discriminate|right; eexists; split; [left; reflexivity|discriminate]].
  - unfold obj_fits. vm_compute. intuition discriminate.
  - unfold obj_fits. vm_compute. intuition discriminate.
Qed.
Lemma bg_reaches : forall s, bg_go s -> bf_reaches 3 bx_cls bx_rs 0 s.
Proof.
  intros s H. exists (bg_cs 0), (start_run 3 bx_cls (bg_cs 0)), (bg_c 0 0 0), (bg_c 2 1 0). split; [reflexivity|]. split; [intros c b [<-|[<-|[]]]; reflexivity|].
  split; [apply bg_fine; exact bx_fine0|]. split; [apply bst_refl|]. split; [reflexivity|]. split; [reflexivity|]. split; [reflexivity|]. split; [reflexivity|exact H].
Qed.
(** the front of this run is the Pareto front, its proof is accepted *)
Example C74_example : steps_valid bx_k (ps_log (r_p (br_r bg_s4))) /\ is_pareto_front bx_cls bx_rs [[0%Z; 1%Z]; [1%Z; 0%Z]].
Proof.
  pose proof bg_ok as (O & F). split.
  - exact (proj1 (C74_front 3 bx_cls bx_rs 0 bg_end O F bx_inst (bg_reaches _ bg_run))).
  - exact (proj1 (C74_finished 3 bx_cls bx_rs 0 bg_end O F bx_inst (bg_reaches _ bg_run) (or_introl eq_refl))).
Qed.
