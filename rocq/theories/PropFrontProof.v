(** * C73: the front reported by a run with proof logging *)
From Coq Require Import List Arith ZArith Lia Bool.
From Verif Require Import Spec ApiSpec Base BaseLemmas Sem Ext ApiTop MTypes MKernel MPMinimal MPrepro MOll VeriPB VeriThm MProofs ProofThm ProofRun ProofCut TracerThm MReform ReformSpec MProofAlg ReifSpec ReifThm ReifRun ProofCert LinsuCert BlockSpec BlockThm PropProof RunSpec RunThm RunSol PropRun BoostSpec BoostThm MProofRun FrontThm.
Import ListNotations.
Local Open Scope nat_scope.

(** The algorithm starts with encodings without outputs; core boosting leads to the state [r0] ([bst_refl]: no core boosting), the
    loops of P-Minimal or lower-bounding to the state [s]. The proof is accepted; every point of the front is Pareto-optimal, its only solution
    is a solution of the instance with these costs and is excluded in the proof; no point is reported twice. *)
Theorem C73_front : forall n cls rs cs r0 s, Forall obj_ok rs -> Forall obj_fits rs -> inst_vars n cls rs -> map co_obj cs = build_objs 0 rs ->
  (forall c b, In c cs -> pe_extend (co_enc c) b = []) -> enc_fine (k_all (init_chk cls (build_objs 0 rs))) cs ->
  let k0 := init_chk cls (build_objs 0 rs) in
  boosts k0 n (inst_sol n cls) (start_run n cls cs) r0 -> pm_runs k0 n cls (mkFs AtOuter r0 []) s ->
  steps_valid k0 (ps_log (r_p (f_r s))) /\
  (forall p, In p (f_front s) -> pareto_optimal cls rs (nd_costs p) /\
     exists b, nd_sols p = [b] /\ inst_sol n cls b /\ costs rs (asg_of b) = nd_costs p /\ In (map axiom (sol_lits b)) (k_excl (kof k0 (r_p (f_r s))))) /\
  NoDup (map nd_costs (f_front s)).
Proof.
  intros n cls rs cs r0 s Hok Hfit Hv Eo Ex Hf k0 B H. destruct (f_runs_inv k0 n cls rs Hok Hfit Hv _ _ (f_start k0 n cls rs Hv cs r0 Eo Ex eq_refl Hf B) H) as (I & _).
  split; [exact (wk_valid _ _ (ro_wok _ _ _ _ (fi_run _ _ _ _ _ I)))|]. split; [|exact (fi_once _ _ _ _ _ I)].
  intros p Hp. destruct (fi_front _ _ _ _ _ I p Hp) as (b & E & Hb & Ho). split; [exact Ho|]. exists b. rewrite E. split; [reflexivity|]. split; [exact (fi_sols _ _ _ _ _ I b Hb)|].
  split; [reflexivity|]. rewrite (ro_excl _ _ _ _ (fi_run _ _ _ _ _ I)). apply in_map_iff. exists b. split; [reflexivity|exact Hb].
Qed.
Print Assumptions C73_front.
(** When the algorithm returns because the solver has no further solution, the front is the Pareto front *)
Theorem C73_finished : forall n cls rs cs r0 s, Forall obj_ok rs -> Forall obj_fits rs -> inst_vars n cls rs -> map co_obj cs = build_objs 0 rs ->
  (forall c b, In c cs -> pe_extend (co_enc c) b = []) -> enc_fine (k_all (init_chk cls (build_objs 0 rs))) cs ->
  let k0 := init_chk cls (build_objs 0 rs) in
  boosts k0 n (inst_sol n cls) (start_run n cls cs) r0 -> pm_runs k0 n cls (mkFs AtOuter r0 []) s -> pm_finished k0 s ->
  is_pareto_front cls rs (map nd_costs (f_front s)).
Proof.
  intros n cls rs cs r0 s Hok Hfit Hv Eo Ex Hf k0 B H (Ha & core & id & C & Hi & Hin & Hsame). destruct (f_runs_inv k0 n cls rs Hok Hfit Hv _ _ (f_start k0 n cls rs Hv cs r0 Eo Ex eq_refl Hf B) H) as (I & _).
  split; [exact (fi_once _ _ _ _ _ I)|]. intros c. split.
  - intros Hc. apply in_map_iff in Hc. destruct Hc as (p & <- & Hp). destruct (fi_front _ _ _ _ _ I p Hp) as (b & _ & _ & Ho). exact Ho.
  - intros Hc. destruct (gen_complete k0 n cls rs (f_r s) Hok Hv (fi_run _ _ _ _ _ I) (fi_objs _ _ _ _ _ I) (fi_sols _ _ _ _ _ I)) as (_ & Q).
    { exists (id, C). split; [exact Hin|]. intros a _ X. cbn [snd] in X. rewrite (lb_same_holds pv_eqd _ _ Hsame) in X. apply lb_clause_holds in X. destruct X as (l & Hl & _).
      destruct core as [|y core]; [destruct Hl|]. exact (Hi y (or_introl eq_refl)). }
    destruct (Q c Hc) as (d & Hd & Ed). pose proof (fi_acc _ _ _ _ _ I d Hd) as A. rewrite Ha in A. destruct A as [A|[(e & He & L & Bt)|[]]].
    + apply in_flat_map in A. destruct A as (p & Hp & Hq). destruct (fi_front _ _ _ _ _ I p Hp) as (b & E & _ & _). rewrite E in Hq. destruct Hq as [<-|[]].
      apply in_map_iff. exists p. split; [rewrite E; exact Ed|exact Hp].
    + exfalso. apply (proj2 Hc (asg_of e) (proj2 (fi_sols _ _ _ _ _ I e He))). rewrite <- Ed. pose proof (fi_objs _ _ _ _ _ I) as Eb. split.
      * exact (proj1 (le_iff rs Hok (r_cs (f_r s)) e d Eb) L).
      * intros X. apply (proj1 (better_iff rs Hok (r_cs (f_r s)) e d Eb) Bt). rewrite X. apply (ic_le rs Hok 0). apply vle_refl.
Qed.
Print Assumptions C73_finished.
(** No costs are blocked twice: the number of candidates is at most the number of different costs of solutions *)
Theorem C73_candidates : forall n cls rs cs r0 s, Forall obj_ok rs -> Forall obj_fits rs -> inst_vars n cls rs -> map co_obj cs = build_objs 0 rs ->
  (forall c b, In c cs -> pe_extend (co_enc c) b = []) -> enc_fine (k_all (init_chk cls (build_objs 0 rs))) cs ->
  let k0 := init_chk cls (build_objs 0 rs) in
  boosts k0 n (inst_sol n cls) (start_run n cls cs) r0 -> pm_runs k0 n cls (mkFs AtOuter r0 []) s ->
  NoDup (map (fun d => costs rs (asg_of d)) (r_done (f_r s))) /\ forall d, In d (r_done (f_r s)) -> inst_sol n cls d.
Proof.
  intros n cls rs cs r0 s Hok Hfit Hv Eo Ex Hf k0 B H. destruct (f_runs_inv k0 n cls rs Hok Hfit Hv _ _ (f_start k0 n cls rs Hv cs r0 Eo Ex eq_refl Hf B) H) as (I & _).
  split; [|exact (fi_sols _ _ _ _ _ I)]. pose proof (fi_objs _ _ _ _ _ I) as Eb. pose proof (fi_cands _ _ _ _ _ I) as P. revert P. generalize (r_done (f_r s)). intros D P.
  induction P as [|d D H1 H2 IH]; cbn [map]; constructor; [|exact IH]. intros X. apply in_map_iff in X. destruct X as (e & E & He). pose proof (proj1 (Forall_forall _ _) H1 e He) as Bt.
  apply (proj1 (better_iff rs Hok (r_cs (f_r s)) d e Eb) Bt). rewrite E. apply (ic_le rs Hok 0). apply vle_refl.
Qed.
Print Assumptions C73_candidates.
(** The solution found can be blocked, and a candidate that cannot be improved can be yielded: neither fails *)
Theorem C73_block : forall n cls rs cs r0 s w xs, Forall obj_ok rs -> Forall obj_fits rs -> inst_vars n cls rs -> map co_obj cs = build_objs 0 rs ->
  (forall c b, In c cs -> pe_extend (co_enc c) b = []) -> enc_fine (k_all (init_chk cls (build_objs 0 rs))) cs ->
  let k0 := init_chk cls (build_objs 0 rs) in
  boosts k0 n (inst_sol n cls) (start_run n cls cs) r0 -> pm_runs k0 n cls (mkFs AtOuter r0 []) s -> f_at s = AtFound w ->
  let r := f_r s in let b := truncate w n in
  (forall f, fix_witness (map co_enc (for_sol (r_cs r) b)) (map co_cost (for_sol (r_cs r) b)) (ps_vmap (r_p r)) b = Some f ->
     exists f', fix_witness (map co_enc (for_sol (r_cs r) b)) (map co_cost (for_sol (r_cs r) b)) (ps_vmap (r_p r)) w = Some f' /\ forall l, In l f' <-> In l f) ->
  map fst xs = for_sol (r_cs r) b ->
  (forall x, In x xs -> bound_pre (kof k0 (r_p r)) (r_nv r) (fst x) /\ (snd x = true -> co_cost (fst x) <= obj_lb (co_obj (fst x)))) ->
  (forall c, In c (for_sol (r_cs r) b) -> co_cost c <= obj_lb (co_obj c) -> co_reform c <> None -> obj_unit_weight (co_obj c) = 1) ->
  exists cl nv' p', block_candidate (map as_bobj xs) (for_sol (r_cs r) b) w n (r_nv r) (r_p r) = Some (cl, nv', p') /\
    pm_step k0 n cls s (mkFs (AtBlocked b) (mkRst (r_cs r) nv' p' (pred (ps_next p') :: r_del r) (b :: r_done r)) (f_front s)).
Proof.
  intros n cls rs cs r0 s w xs Hok Hfit Hv Eo Ex Hf k0 B H Ha r b Hw Exs Hpre Huw. destruct (f_runs_inv k0 n cls rs Hok Hfit Hv _ _ (f_start k0 n cls rs Hv cs r0 Eo Ex eq_refl Hf B) H) as (I & _).
  pose proof (fi_at _ _ _ _ _ I) as A. rewrite Ha in A. destruct A as (Hb & Hd). pose proof (fi_run _ _ _ _ _ I) as R.
  destruct (ro_sols _ _ _ _ R _ Hb Hd) as (f & La). destruct (Hw f (rd_fix _ _ _ _ _ _ _ (la_ready _ _ _ _ _ _ _ _ La))) as (f' & Ef & Hff).
  pose proof (lasting_ready k0 _ _ b w n _ _ f f' La (total_trunc n b (proj1 Hb)) eq_refl Ef Hff) as Rw.
  destruct (block_ok k0 _ w n (for_sol_idx _ b (ro_idx _ _ _ _ R)) xs _ _ f' Exs Rw Hpre Huw) as (cl & nv' & p' & E & _).
  exists cl, nv', p'. split; [exact E|]. destruct s as [at_ [rcs rnv rp rL rd] F]. cbn [f_at f_r f_front r_cs r_nv r_p r_del r_done] in *. subst at_. apply pm_block; [|reflexivity].
  exact (ev_block k0 n _ rcs rnv rp rL rd b w xs cl nv' p' Hb Hd eq_refl Hw Exs Hpre Huw E).
Qed.
Print Assumptions C73_block.
Theorem C73_yield : forall n cls rs cs r0 s b A, Forall obj_ok rs -> Forall obj_fits rs -> inst_vars n cls rs -> map co_obj cs = build_objs 0 rs ->
  (forall c b, In c cs -> pe_extend (co_enc c) b = []) -> enc_fine (k_all (init_chk cls (build_objs 0 rs))) cs ->
  let k0 := init_chk cls (build_objs 0 rs) in
  boosts k0 n (inst_sol n cls) (start_run n cls cs) r0 -> pm_runs k0 n cls (mkFs AtOuter r0 []) s -> f_at s = AtBlocked b ->
  dominating_assumps (for_sol (r_cs (f_r s)) b) = Some A -> solver_unsat k0 (f_r s) A ->
  pm_step k0 n cls s (mkFs AtOuter (f_r s) (f_front s ++ [mkNd (costs rs (asg_of b)) [b]])).
Proof.
  intros n cls rs cs r0 s b A Hok Hfit Hv Eo Ex Hf k0 B H Ha EA U. destruct (f_runs_inv k0 n cls rs Hok Hfit Hv _ _ (f_start k0 n cls rs Hv cs r0 Eo Ex eq_refl Hf B) H) as (I & _).
  pose proof (fi_view _ _ _ _ _ I (map co_cost (for_sol (r_cs (f_r s)) b))) as V.
  replace (map co_cost (for_sol (r_cs (f_r s)) b)) with (ic (build_objs 0 rs) (asg_of b)) in V.
  - rewrite (ext_all rs Hok 0 (asg_of b) Hfit) in V. destruct s as [at_ r F]. cbn [f_at f_r f_front] in *. subst at_. apply (pm_yield k0 n cls r F b A); [exact EA|exact U|].
    unfold for_sol. rewrite map_map. cbn [co_cost]. rewrite (bare_cost rs (r_cs r) (asg_of b) (fi_objs _ _ _ _ _ I)). exact V.
  - unfold for_sol. rewrite map_map. cbn [co_cost]. symmetry. apply bare_cost. exact (fi_objs _ _ _ _ _ I).
Qed.
Print Assumptions C73_yield.

(** ** Example: minimise 2*x0 + x2 and x1 subject to x0 or x1
    The encoding of the first objective defines x3 (at least 1), x4 (at least 2) and x5 (at least 3), and hands three clauses to the
    solver. The first candidate has the costs (3, 0), it is improved to (2, 0), which is yielded; then (0, 1) is found and yielded. *)
Definition fr_e (m : nat) (h : bool) : penc := mkPenc 0 m true
  (fun b => if h then Some (match b with 0 => [neg 3; neg 4; neg 5] | 1 => [neg 4; neg 5] | 2 => [neg 5] | _ => [] end) else None)
  (fun v => if (1 <=? v) && (v <=? m) then Some (pos (2 + v), (Some (2 * v), Some (S (2 * v)))) else None) S
  (fun b => map (fun v => mkLit (2 + v) (negb (v <=? wsum (asg_of b) [(pos 0, 2); (pos 2, 1)]))) (seq 1 m)).
Definition fr_e2 : penc := mkPenc 0 1 true (fun b => if b =? 0 then Some [neg 1] else Some []) (fun _ => None) S (fun _ => []).
Definition fr_cs (m : nat) (h : bool) : list cobj := [mkCobj (fr_e m h) ex_o1 None 0; mkCobj fr_e2 ex_o2 None 0].
Definition fr_defs (m : nat) (es : list entry) : Prop :=
  forall v, 1 <= v <= m -> In (2 * v, wif_def rn_ts (axiom (pos (2 + v))) (Z.of_nat v)) es /\ In (S (2 * v), wonly_def rn_ts (axiom (pos (2 + v))) (Z.of_nat v)) es.
Lemma fr_fine : forall es m h, m <= 3 -> (h = true -> m = 3) -> fr_defs m es -> enc_fine es (fr_cs m h).
Proof.
  intros es m h Hm Hh Hes. split.
  - constructor; [|constructor; [|constructor]].
    + exists (obj_terms ex_o1). constructor; cbn [co_reform co_enc co_obj co_cost fr_e pe_buf_empty pe_nout pe_details pe_enforce_ub pe_offset].
      * split; reflexivity.
      * intros t Ht. apply in_map_iff in Ht. destruct Ht as (lw & <- & _). cbn [fst]. lia.
      * reflexivity.
      * intros _ v olit i d H. destruct (Nat.leb_spec 1 v) as [V1|]; [|discriminate]. destruct (Nat.leb_spec v m) as [V2|]; [|discriminate]. cbn [andb] in H. injection H as <- <- <-.
        destruct (Hes v (conj V1 V2)) as (_ & I2). eexists. split; [exact I2|]. assert (v = 1 \/ v = 2 \/ v = 3) as [-> | [-> | ->]] by lia;
          intros a; cbn; unfold lb_val, ax_true; cbn; destruct (a (PVs 0)), (a (PVs 2)), (a (PVs 3)), (a (PVs 4)), (a (PVs 5)); reflexivity.
      * intros H1 H2 l ls H. exfalso. destruct h; [|discriminate]. specialize (Hh eq_refl). lia.
    + exists (obj_terms ex_o2). constructor; try (cbn; intros; discriminate).
      * split; reflexivity.
      * intros t Ht. apply in_map_iff in Ht. destruct Ht as (lw & <- & _). cbn [fst]. lia.
      * intros H. exfalso. apply H. reflexivity.
  - intros c [<-|[<-|[]]] a Ha Hlt; cbn [co_enc co_obj fr_e fr_e2 pe_nout pe_enforce_ub pe_offset pe_details pe_buf_empty] in *.
    + split; [intros x xs H1 H; destruct h; [specialize (Hh eq_refl); lia|discriminate]|]. intros olit i _ H. set (v := icost ex_o1 (on_solver a)) in *.
      destruct (Nat.leb_spec 1 v) as [V1|]; [|discriminate]. destruct (Nat.leb_spec v m) as [V2|]; [|discriminate]. cbn [andb] in H. injection H as <- <-.
      destruct (Hes v (conj V1 V2)) as (I1 & _). apply Ha in I1. cbn [snd] in I1. assert (Ev : v = icost ex_o1 (on_solver a)) by reflexivity.
      assert (v = 1 \/ v = 2 \/ v = 3) as V3 by lia. destruct V3 as [V3|[V3|V3]]; rewrite V3 in *; unfold lb_holds in I1; cbn in I1, Ev; unfold lit_true, on_solver in Ev; cbn in Ev; unfold ax_true in *; cbn in *;
        destruct (a (PVs 0)), (a (PVs 2)), (a (PVs 3)), (a (PVs 4)), (a (PVs 5)); cbn in *; try reflexivity; try lia.
    + split; [|intros olit i _ H; discriminate]. intros x xs _ H. cbn in H. injection H as <- <-. cbn in Hlt. unfold lit_true, on_solver in Hlt. cbn in Hlt. unfold ax_true. cbn. destruct (a (PVs 1)); [reflexivity|cbn in Hlt; lia].
Qed.
(** the clauses for the solver *)
Definition fr_cl1 : clause := [neg 0; pos 4].
Definition fr_cl2 : clause := [neg 0; neg 2; pos 5].
Definition fr_cl3 : clause := [neg 2; pos 3].
Lemma fr_works : forall m h nv p L D, (h = true -> fr_defs 3 (k_all (kof rn_k p)) /\ In (fr_cl1, 8) (ps_reg p) /\ In (fr_cl2, 9) (ps_reg p) /\ In (fr_cl3, 10) (ps_reg p)) ->
  enc_works rn_k ex_cls (mkRst (fr_cs m h) nv p L D).
Proof.
  intros m h nv p L D Hh c v as_ [<-|[<-|[]]] E; cbn [co_enc co_obj fr_e fr_e2 pe_enforce_ub r_p] in *.
  - destruct h; [|discriminate]. destruct (Hh eq_refl) as (Hd & H1 & H2 & H3). injection E as <-. split.
    + intros w _ Hm T. specialize (Hm _ _ H1) as M1. specialize (Hm _ _ H2) as M2. specialize (Hm _ _ H3) as M3.
      assert (T3 : v = 0 -> w 3 = false) by (intros ->; specialize (T (neg 3) (or_introl eq_refl)); cbn in T; destruct (w 3); [discriminate|reflexivity]).
      assert (T4 : v <= 1 -> w 4 = false).
      { intros V. assert (X : lit_true w (neg 4) = true) by (destruct v as [|[|v]]; [apply T; right; left; reflexivity|apply T; left; reflexivity|lia]). cbn in X. destruct (w 4); [discriminate|reflexivity]. }
      assert (T5 : v <= 2 -> w 5 = false).
      { intros V. assert (X : lit_true w (neg 5) = true) by (destruct v as [|[|[|v]]]; [apply T; right; right; left; reflexivity|apply T; right; left; reflexivity|apply T; left; reflexivity|lia]). cbn in X. destruct (w 5); [discriminate|reflexivity]. }
      clear T Hm H1 H2 H3. cbn in M1, M2, M3. unfold lit_true in *. cbn in *.
      destruct (w 0), (w 2), (w 3), (w 4), (w 5); cbn in *; try discriminate; destruct v as [|[|[|v]]]; try lia; exfalso; try (specialize (T3 eq_refl); discriminate); try (assert (X := T4 ltac:(lia)); discriminate); try (assert (X := T5 ltac:(lia)); discriminate).
    + intros a Ha Hc. pose proof (Ha _ (proj2 (Hd 1 ltac:(lia)))) as D1. pose proof (Ha _ (proj2 (Hd 2 ltac:(lia)))) as D2. pose proof (Ha _ (proj2 (Hd 3 ltac:(lia)))) as D3. clear Ha Hd.
      cbn [snd] in D1, D2, D3. unfold lb_holds in D1, D2, D3. cbn in D1, D2, D3, Hc. unfold ax_true in D1, D2, D3. unfold lit_true, on_solver in Hc. cbn in D1, D2, D3, Hc.
      intros l Hl. unfold lit_true, on_solver. destruct v as [|[|[|v]]]; cbn in Hl; decompose [or] Hl; try contradiction; subst l; cbn;
        destruct (a (PVs 0)), (a (PVs 2)), (a (PVs 3)), (a (PVs 4)), (a (PVs 5)); cbn in *; try reflexivity; lia.
  - destruct (Nat.eqb_spec v 0) as [->|V]; injection E as <-.
    + split.
      * intros w _ _ T. specialize (T _ (or_introl eq_refl)). cbn in *. unfold lit_true in *. cbn in *. destruct (w 1); [discriminate|lia].
      * intros a _ Hc l [<-|[]]. cbn in *. unfold lit_true, on_solver in *. cbn in *. destruct (a (PVs 1)); [cbn in Hc; lia|reflexivity].
    + split; [|intros a _ _ l []]. intros w _ _ _. cbn. unfold lit_true. cbn. destruct (w 1); cbn; lia.
Qed.
(** the outputs *)
Definition fr_start := start_run 2 ex_cls (fr_cs 0 false).
Lemma fr_out_step : forall m p, ps_vmap p = [] -> m < 3 -> fr_defs (S m) (k_all (kof rn_k (rn_out (S m) p))) ->
  run_step rn_k 2 (inst_sol 2 ex_cls) (mkRst (fr_cs m false) (3 + m) p [] []) (mkRst (fr_cs (S m) false) (3 + S m) (rn_out (S m) p) [] []).
Proof.
  intros m p Ep Hm Hf. replace (3 + S m) with (S (3 + m)) by lia. apply (ev_output rn_k 2 (inst_sol 2 ex_cls) (fr_cs m false) (fr_cs (S m) false) (3 + m) p [] [] rn_ts (Z.of_nat (S m))).
  - exact rn_wf.
  - change (wtot rn_ts) with 3%Z. lia.
  - intros t [<-|[<-|[]]]; eexists; (split; [reflexivity|]); apply (inst_summand 2); try (cbn; lia); [intros b Hb; exact (proj1 Hb)|rewrite Ep; intros []|intros b Hb; exact (proj1 Hb)|rewrite Ep; intros []].
  - reflexivity.
  - intros b x Hb. exact (rn_ext m b x Hm Hb).
  - rewrite rm_nil. apply fr_fine; [lia|discriminate|exact Hf].
Qed.
Definition fr_lines : pst := snd (wr_id (SRup (clause_pb fr_cl3) [CAbs 2]) (snd (wr_id (SRup (clause_pb fr_cl2) [CAbs 6]) (snd (wr_id (SRup (clause_pb fr_cl1) [CAbs 4]) rn_p3))))).
Definition fr_p4 : pst := add_cert fr_cl3 10 (add_cert fr_cl2 9 (add_cert fr_cl1 8 fr_lines)).
Definition fr_st (h : bool) (nv : nat) (p : pst) (L : list nat) (D : list assignment) : rst := mkRst (fr_cs 3 h) nv p L D.
Definition fr_a : assignment := [Some true; Some false; Some true].
Definition fr_b : assignment := [Some true; Some false; Some false].
Definition fr_c : assignment := [Some false; Some true; Some false].
(** the solutions of the solver *)
Definition fr_wa : assignment := fr_a ++ [Some true; Some true; Some true].
Definition fr_wb : assignment := fr_b ++ [Some true; Some true; Some false].
Definition fr_wc : assignment := fr_c ++ [Some false; Some false; Some false; Some true].
Definition fr_xs (b : assignment) : list (cobj * bool) := map (fun c => (c, false)) (for_sol (fr_cs 3 true) b).
Definition fr_blocked (w : assignment) (nv : nat) (p : pst) : option (clause * nat * pst) :=
  block_candidate (map as_bobj (fr_xs (truncate w 2))) (for_sol (fr_cs 3 true) (truncate w 2)) w 2 nv p.
Definition fr_pa : pst := match fr_blocked fr_wa 6 fr_p4 with Some (_, _, p) => p | None => fr_p4 end.
Definition fr_pb : pst := match fr_blocked fr_wb 6 fr_pa with Some (_, _, p) => p | None => fr_p4 end.
Definition fr_core : step := SRup (clause_pb [pos 1]) [CAbs 1; CAbs 22; CAbs 15; CAbs 8].
Definition fr_pb1 : pst := snd (wr_id fr_core fr_pb).
Definition fr_pc : pst := match fr_blocked fr_wc 7 fr_pb1 with Some (_, _, p) => p | None => fr_p4 end.
Definition fr_last : step := SRup (clause_pb []) [CAbs 23; CAbs 27].
Definition fr_pd : pst := snd (wr_id fr_last fr_pc).
Example fr_clause_a : fr_blocked fr_wa 6 fr_p4 = Some ([neg 5], 6, fr_pa). Proof. vm_compute. reflexivity. Qed.
Example fr_clause_b : fr_blocked fr_wb 6 fr_pa = Some ([pos 6], 7, fr_pb). Proof. vm_compute. reflexivity. Qed.
Example fr_clause_c : fr_blocked fr_wc 7 fr_pb1 = Some ([neg 1], 7, fr_pc). Proof. vm_compute. reflexivity. Qed.
(** clauses that follow from one constraint *)
Lemma fr_derive : forall cl i C k, id_get (k_all k) (k_next k) (CAbs i) = Some C -> (forall a, (forall l, In l cl -> ax_true a (axiom l) = false) -> ~ lb_holds a C) ->
  step_valid k (SRup (clause_pb cl) [CAbs i]).
Proof.
  intros cl i C k E H. exists [C]. split; [cbn [map opt_all]; rewrite E; reflexivity|]. apply (rup_two _ (map axiom cl) []); [intros m []|]. exists C. split; [left; reflexivity|].
  intros a Ha _. apply H. intros l Hl. apply Ha. apply in_map. exact Hl.
Qed.
Lemma fr_defs_dec : forall es, (In (2, wif_def rn_ts (axiom (pos 3)) 1) es /\ In (3, wonly_def rn_ts (axiom (pos 3)) 1) es) /\
  (In (4, wif_def rn_ts (axiom (pos 4)) 2) es /\ In (5, wonly_def rn_ts (axiom (pos 4)) 2) es) /\
  (In (6, wif_def rn_ts (axiom (pos 5)) 3) es /\ In (7, wonly_def rn_ts (axiom (pos 5)) 3) es) -> fr_defs 3 es.
Proof. intros es (H1 & H2 & H3) v Hv. assert (v = 1 \/ v = 2 \/ v = 3) as [-> | [-> | ->]] by lia; assumption. Qed.
Lemma fr_works_at : forall nv p L D,
  fr_defs 3 (k_all (kof rn_k p)) -> In (fr_cl1, 8) (ps_reg p) -> In (fr_cl2, 9) (ps_reg p) -> In (fr_cl3, 10) (ps_reg p) -> enc_works rn_k ex_cls (fr_st true nv p L D).
Proof. intros nv p L D H1 H2 H3 H4. apply fr_works. intros _. repeat split; try assumption; apply H1; assumption. Qed.
Lemma fr_works_early : forall m nv p L D, enc_works rn_k ex_cls (mkRst (fr_cs m false) nv p L D).
Proof. intros m nv p L D. apply fr_works. discriminate. Qed.
Lemma fr_def4 : fr_defs 3 (k_all (kof rn_k fr_p4)). Proof. apply fr_defs_dec. vm_compute. tauto. Qed.
Lemma fr_defa : fr_defs 3 (k_all (kof rn_k fr_pa)). Proof. apply fr_defs_dec. vm_compute. tauto. Qed.
Lemma fr_defb : fr_defs 3 (k_all (kof rn_k fr_pb)). Proof. apply fr_defs_dec. vm_compute. tauto. Qed.
Lemma fr_defb1 : fr_defs 3 (k_all (kof rn_k fr_pb1)). Proof. apply fr_defs_dec. vm_compute. tauto. Qed.
Lemma fr_defc : fr_defs 3 (k_all (kof rn_k fr_pc)). Proof. apply fr_defs_dec. vm_compute. tauto. Qed.
Lemma fr_defd : fr_defs 3 (k_all (kof rn_k fr_pd)). Proof. apply fr_defs_dec. vm_compute. tauto. Qed.
Definition fr_works_all (p : pst) : Prop := forall nv L D, enc_works rn_k ex_cls (fr_st true nv p L D).
Lemma fr_w4 : fr_works_all fr_p4. Proof. intros nv L D. apply fr_works_at; [exact fr_def4|vm_compute; tauto|vm_compute; tauto|vm_compute; tauto]. Qed.
Lemma fr_wa' : fr_works_all fr_pa. Proof. intros nv L D. apply fr_works_at; [exact fr_defa|vm_compute; tauto|vm_compute; tauto|vm_compute; tauto]. Qed.
Lemma fr_wb' : fr_works_all fr_pb. Proof. intros nv L D. apply fr_works_at; [exact fr_defb|vm_compute; tauto|vm_compute; tauto|vm_compute; tauto]. Qed.
Lemma fr_wb1 : fr_works_all fr_pb1. Proof. intros nv L D. apply fr_works_at; [exact fr_defb1|vm_compute; tauto|vm_compute; tauto|vm_compute; tauto]. Qed.
Lemma fr_wc' : fr_works_all fr_pc. Proof. intros nv L D. apply fr_works_at; [exact fr_defc|vm_compute; tauto|vm_compute; tauto|vm_compute; tauto]. Qed.
Lemma fr_wd : fr_works_all fr_pd. Proof. intros nv L D. apply fr_works_at; [exact fr_defd|vm_compute; tauto|vm_compute; tauto|vm_compute; tauto]. Qed.

(** the work before the first solution *)
Definition fr_go := pm_runs rn_k 2 ex_cls (mkFs AtOuter fr_start []).
Lemma fr_work : forall s1 m at_ r nv p L D F, fr_go s1 -> s1 = mkFs at_ r F -> run_step rn_k 2 (inst_sol 2 ex_cls) r (mkRst (fr_cs m false) nv p L D) -> D = r_done r ->
  fr_go (mkFs at_ (mkRst (fr_cs m false) nv p L D) F).
Proof. intros s1 m at_ r nv p L D F H -> S E. apply (pr_step _ _ _ _ _ _ H); [apply pm_work; [exact S|exact E]|apply fr_works_early]. Qed.
Definition fr_outer (h : bool) (nv : nat) (p : pst) (L : list nat) (D : list assignment) (F : list (nd_point assignment)) : fstate := mkFs AtOuter (fr_st h nv p L D) F.
Lemma fr_run3 : fr_go (fr_outer false 6 rn_p3 [] [] []).
Proof.
  assert (H0 : fr_go (mkFs AtOuter fr_start [])) by (apply pr_refl; exact (fr_works_early 0 _ _ _ _)).
  assert (H1 : fr_go (mkFs AtOuter (mkRst (fr_cs 1 false) 4 (rn_out 1 (r_p fr_start)) [] []) [])).
  { refine (fr_work _ 1 AtOuter fr_start _ _ [] [] [] H0 eq_refl (fr_out_step 0 (r_p fr_start) eq_refl _ _) eq_refl); [lia|]. intros v Hv. replace v with 1 by lia. vm_compute. tauto. }
  assert (H2 : fr_go (mkFs AtOuter (mkRst (fr_cs 2 false) 5 (rn_out 2 (rn_out 1 (r_p fr_start))) [] []) [])).
  { refine (fr_work _ 2 AtOuter _ _ _ [] [] [] H1 eq_refl (fr_out_step 1 (rn_out 1 (r_p fr_start)) eq_refl _ _) eq_refl); [lia|]. intros v Hv. assert (v = 1 \/ v = 2) as [-> | ->] by lia; vm_compute; tauto. }
  refine (fr_work _ 3 AtOuter _ _ _ [] [] [] H2 eq_refl (fr_out_step 2 (rn_out 2 (rn_out 1 (r_p fr_start))) eq_refl _ _) eq_refl); [lia|]. apply fr_defs_dec. vm_compute. tauto.
Qed.
Definition fr_l1 : pst := snd (wr_id (SRup (clause_pb fr_cl1) [CAbs 4]) rn_p3).
Definition fr_l2 : pst := snd (wr_id (SRup (clause_pb fr_cl2) [CAbs 6]) fr_l1).
Lemma fr_d1 : run_step rn_k 2 (inst_sol 2 ex_cls) (fr_st false 6 rn_p3 [] []) (fr_st false 6 fr_l1 [] []).
Proof.
  apply (ev_derive rn_k 2 (inst_sol 2 ex_cls) (fr_cs 3 false) 6 rn_p3 [] [] (SRup (clause_pb fr_cl1) [CAbs 4]) false); [exact Logic.I| |].
  - apply (fr_derive fr_cl1 4 (wif_def rn_ts (axiom (pos 4)) 2)); [vm_compute; reflexivity|]. intros a Ha H. pose proof (Ha _ (or_introl eq_refl)) as A0. pose proof (Ha _ (or_intror (or_introl eq_refl))) as A4.
    unfold lb_holds in H. cbn in H, A0, A4. unfold ax_true in *. cbn in *. destruct (a (PVs 0)), (a (PVs 2)), (a (PVs 4)); try discriminate; cbn in H; lia.
  - intros v Hv. vm_compute in Hv. decompose [or] Hv; try contradiction; subst v; cbn; lia.
Qed.
Lemma fr_d2 : run_step rn_k 2 (inst_sol 2 ex_cls) (fr_st false 6 fr_l1 [] []) (fr_st false 6 fr_l2 [] []).
Proof.
  apply (ev_derive rn_k 2 (inst_sol 2 ex_cls) (fr_cs 3 false) 6 fr_l1 [] [] (SRup (clause_pb fr_cl2) [CAbs 6]) false); [exact Logic.I| |].
  - apply (fr_derive fr_cl2 6 (wif_def rn_ts (axiom (pos 5)) 3)); [vm_compute; reflexivity|]. intros a Ha H. pose proof (Ha _ (or_introl eq_refl)) as A0. pose proof (Ha _ (or_intror (or_introl eq_refl))) as A2. pose proof (Ha _ (or_intror (or_intror (or_introl eq_refl)))) as A5.
    unfold lb_holds in H. cbn in H, A0, A2, A5. unfold ax_true in *. cbn in *. destruct (a (PVs 0)), (a (PVs 2)), (a (PVs 5)); try discriminate; cbn in H; lia.
  - intros v Hv. vm_compute in Hv. decompose [or] Hv; try contradiction; subst v; cbn; lia.
Qed.
Lemma fr_d3 : run_step rn_k 2 (inst_sol 2 ex_cls) (fr_st false 6 fr_l2 [] []) (fr_st false 6 fr_lines [] []).
Proof.
  apply (ev_derive rn_k 2 (inst_sol 2 ex_cls) (fr_cs 3 false) 6 fr_l2 [] [] (SRup (clause_pb fr_cl3) [CAbs 2]) false); [exact Logic.I| |].
  - apply (fr_derive fr_cl3 2 (wif_def rn_ts (axiom (pos 3)) 1)); [vm_compute; reflexivity|]. intros a Ha H. pose proof (Ha _ (or_introl eq_refl)) as A2. pose proof (Ha _ (or_intror (or_introl eq_refl))) as A3.
    unfold lb_holds in H. cbn in H, A2, A3. unfold ax_true in *. cbn in *. destruct (a (PVs 0)), (a (PVs 2)), (a (PVs 3)); try discriminate; cbn in H; lia.
  - intros v Hv. vm_compute in Hv. decompose [or] Hv; try contradiction; subst v; cbn; lia.
Qed.
Lemma fr_hand : forall c id p, In (id, clause_pb c) (k_all (kof rn_k p)) -> run_step rn_k 2 (inst_sol 2 ex_cls) (fr_st false 6 p [] []) (fr_st false 6 (add_cert c id p) [] []).
Proof. intros c id p H. apply (ev_clause rn_k 2 _ _ _ _ _ _ c id (clause_pb c) H). split; reflexivity. Qed.
Lemma fr_run4 : fr_go (fr_outer true 6 fr_p4 [] [] []).
Proof.
  pose proof (fr_work _ 3 AtOuter _ 6 _ [] [] [] fr_run3 eq_refl fr_d1 eq_refl) as H1. pose proof (fr_work _ 3 AtOuter _ 6 _ [] [] [] H1 eq_refl fr_d2 eq_refl) as H2. pose proof (fr_work _ 3 AtOuter _ 6 _ [] [] [] H2 eq_refl fr_d3 eq_refl) as H3.
  pose proof (fr_work _ 3 AtOuter _ 6 _ [] [] [] H3 eq_refl (fr_hand fr_cl1 8 fr_lines ltac:(vm_compute; tauto)) eq_refl) as H4.
  pose proof (fr_work _ 3 AtOuter _ 6 _ [] [] [] H4 eq_refl (fr_hand fr_cl2 9 (add_cert fr_cl1 8 fr_lines) ltac:(vm_compute; tauto)) eq_refl) as H5.
  pose proof (fr_work _ 3 AtOuter _ 6 _ [] [] [] H5 eq_refl (fr_hand fr_cl3 10 (add_cert fr_cl2 9 (add_cert fr_cl1 8 fr_lines)) ltac:(vm_compute; tauto)) eq_refl) as H6.
  apply (pr_step _ _ _ _ _ _ H6); [|apply fr_w4]. apply pm_work; [|reflexivity]. apply (ev_encoding rn_k 2 (inst_sol 2 ex_cls) (fr_cs 3 false) (fr_cs 3 true)); [reflexivity|intros b x _; reflexivity|].
  rewrite rm_nil. apply fr_fine; [lia|reflexivity|exact fr_def4].
Qed.
(** blocking a solution *)
Lemma fr_has : forall k v, 1 <= v <= 3 -> fr_defs 3 (k_all k) -> has_out k (fr_e 3 true) rn_ts v (pos (2 + v)).
Proof.
  intros k v Hv Hd. destruct (Hd v Hv) as (I1 & I2). assert (N : ~ In (PVs (lvar (pos (2 + v)))) (map ax_var (map snd rn_ts))).
  { intros [X|[X|[]]]; cbn in X; injection X as X; lia. }
  assert (E : (Z.of_nat v - Z.of_nat (pe_offset (fr_e 3 true)) = Z.of_nat v)%Z) by (cbn [fr_e pe_offset]; lia).
  exists (2 * v), (S (2 * v)). constructor; [|cbn [fr_e pe_offset]; lia|rewrite E; change (wtot rn_ts) with 3%Z; lia|exact N| |]; rewrite ?E.
  - assert (v = 1 \/ v = 2 \/ v = 3) as [-> | [-> | ->]] by lia; reflexivity.
  - eexists. split; [exact I1|]. apply wif_concrete; [apply rn_wf|change (wtot rn_ts) with 3%Z; lia|exact N].
  - eexists. split; [exact I2|]. apply wonly_concrete; [apply rn_wf|lia|exact N].
Qed.
Lemma fr_pre1 : forall k nv v, 6 <= nv -> fr_defs 3 (k_all k) -> v = 0 \/ v = 2 \/ v = 3 -> bound_pre k nv (mkCobj (fr_e 3 true) ex_o1 None v).
Proof.
  intros k nv v Hnv Hd Hv. split; [intros l w [H|[H|[]]]; injection H as <- _; cbn; lia|]. split; [reflexivity|]. split; [cbn; lia|]. intros Hlt. cbn [co_cost co_obj obj_lb ex_o1] in Hlt. destruct Hv as [-> | [-> | ->]]; [exfalso; revert Hlt; vm_compute; lia| |].
  - exists [neg 4; neg 5]. split; [reflexivity|]. split; [intros a [<-|[<-|[]]]; cbn; lia|]. split; [discriminate|]. split; [discriminate|].
    exists rn_ts. split; [exact rn_wf|]. split; [|repeat constructor; cbn; intuition discriminate].
    split; [apply (fr_has _ 2); [lia|exact Hd]|]. split; [cbn; lia|]. split; [apply (fr_has _ 3); [lia|exact Hd]|exact Logic.I].
  - exists [neg 5]. split; [reflexivity|]. split; [intros a [<-|[]]; cbn; lia|]. right. right. split; [discriminate|]. split; [discriminate|]. split; [reflexivity|].
    exists (pos 5), (Some 6), 7. split; reflexivity.
Qed.
Lemma fr_pre2 : forall k nv v, 6 <= nv -> v <= 1 -> bound_pre k nv (mkCobj fr_e2 ex_o2 None v).
Proof.
  intros k nv v Hnv Hv. split; [intros l w [H|[]]; injection H as <- _; cbn; lia|]. split; [reflexivity|]. split; [cbn; lia|]. intros Hlt. cbn [co_cost co_obj] in Hlt. assert (v = 0 \/ v = 1) as [-> | ->] by lia; [exfalso; revert Hlt; vm_compute; lia|].
  exists [neg 1]. split; [reflexivity|]. split; [intros a [<-|[]]; cbn; lia|]. left. exists (pos 1), 1. split; reflexivity.
Qed.
Lemma fr_block : forall w b nv nv' p p' cl D L, truncate w 2 = b -> inst_sol 2 ex_cls b -> (forall d, In d D -> better (fr_cs 3 true) b d) ->
  fix_witness (map co_enc (for_sol (fr_cs 3 true) b)) (map co_cost (for_sol (fr_cs 3 true) b)) (ps_vmap p) w = fix_witness (map co_enc (for_sol (fr_cs 3 true) b)) (map co_cost (for_sol (fr_cs 3 true) b)) (ps_vmap p) b ->
  6 <= nv -> fr_defs 3 (k_all (kof rn_k p)) -> (icost ex_o1 (asg_of b) = 0 \/ icost ex_o1 (asg_of b) = 2 \/ icost ex_o1 (asg_of b) = 3) -> icost ex_o2 (asg_of b) <= 1 ->
  fr_blocked w nv p = Some (cl, nv', p') ->
  run_step rn_k 2 (inst_sol 2 ex_cls) (fr_st true nv p L D) (fr_st true nv' p' (pred (ps_next p') :: L) (b :: D)).
Proof.
  intros w b nv nv' p p' cl D L Eb Hb Hd Ef Hnv Hdef H1 H2 E. unfold fr_blocked in E. rewrite Eb in E.
  apply (ev_block rn_k 2 (inst_sol 2 ex_cls) (fr_cs 3 true) nv p L D b w (fr_xs b) cl nv' p' Hb Hd Eb).
  - intros f Hf. exists f. split; [congruence|]. intros l. reflexivity.
  - reflexivity.
  - intros x [<-|[<-|[]]]; (split; [|discriminate]); cbn [fst]; [exact (fr_pre1 _ _ _ Hnv Hdef H1)|exact (fr_pre2 _ _ _ Hnv H2)].
  - intros c [<-|[<-|[]]]; cbn; congruence.
  - exact E.
Qed.
Lemma fr_sol : forall x y z, (x = true \/ y = true) -> inst_sol 2 ex_cls [Some x; Some y; Some z].
Proof. intros x y z H. split; [split; [reflexivity|]; intros t [<-|[<-|[<-|[]]]]; discriminate|intros c [<-|[]]; destruct H as [-> | ->]; [reflexivity|destruct x; reflexivity]]. Qed.
Definition fr_La : list nat := [pred (ps_next fr_pa)].
Definition fr_Lb : list nat := pred (ps_next fr_pb) :: fr_La.
Definition fr_Lb1 : list nat := ps_next fr_pb :: fr_Lb.
Definition fr_Lc : list nat := pred (ps_next fr_pc) :: fr_Lb1.
Definition fr_Ld : list nat := ps_next fr_pc :: fr_Lc.
Lemma fr_handed : forall w p, forallb (fun e => clause_true (asg_of w) (fst e)) (ps_reg p) = true -> models_handed (asg_of w) p.
Proof. intros w p H c id Hc. exact (proj1 (forallb_forall _ _) H (c, id) Hc). Qed.
Lemma fr_answer : forall w x y z nv p L D, truncate w 2 = [Some x; Some y; Some z] -> (x = true \/ y = true) -> sat (asg_of w) ex_cls ->
  forallb (fun e => clause_true (asg_of w) (fst e)) (ps_reg p) = true -> solver_sat 2 ex_cls (fr_st true nv p L D) w.
Proof. intros w x y z nv p L D E H Hs Hm. split; [rewrite E; exact (proj1 (fr_sol x y z H))|]. split; [exact Hs|apply fr_handed; exact Hm]. Qed.
(** the first point: the candidate with the costs (3, 0) is improved once *)
Lemma fr_run_a : fr_go (mkFs (AtBlocked fr_a) (fr_st true 6 fr_pa fr_La [fr_a]) []).
Proof.
  assert (H1 : fr_go (mkFs (AtFound fr_wa) (fr_st true 6 fr_p4 [] []) [])).
  { apply (pr_step _ _ _ _ _ _ fr_run4); [|apply fr_w4]. apply pm_found. apply (fr_answer fr_wa true false true); [reflexivity|left; reflexivity|intros c [<-|[]]; reflexivity|vm_compute; reflexivity]. }
  apply (pr_step _ _ _ _ _ _ H1); [|apply fr_wa']. apply (pm_block rn_k 2 ex_cls _ (fr_st true 6 fr_pa fr_La [fr_a]) [] fr_wa); [|reflexivity].
  apply (fr_block fr_wa fr_a 6 6 fr_p4 fr_pa [neg 5]); [reflexivity|apply fr_sol; left; reflexivity|intros d []|vm_compute; reflexivity|lia|exact fr_def4|right; right; reflexivity|vm_compute; lia|exact fr_clause_a].
Qed.
Lemma fr_run_b : fr_go (mkFs (AtBlocked fr_b) (fr_st true 7 fr_pb fr_Lb [fr_b; fr_a]) []).
Proof.
  assert (H1 : fr_go (mkFs (AtFound fr_wb) (fr_st true 6 fr_pa fr_La [fr_a]) [])).
  { apply (pr_step _ _ _ _ _ _ fr_run_a); [|apply fr_wa']. apply (pm_improve _ _ _ _ _ _ fr_wb [neg 1]); [reflexivity| |intros l [<-|[]]; reflexivity].
    apply (fr_answer fr_wb true false false); [reflexivity|left; reflexivity|intros c [<-|[]]; reflexivity|vm_compute; reflexivity]. }
  apply (pr_step _ _ _ _ _ _ H1); [|apply fr_wb']. apply (pm_block rn_k 2 ex_cls _ (fr_st true 7 fr_pb fr_Lb [fr_b; fr_a]) [] fr_wb); [|reflexivity].
  apply (fr_block fr_wb fr_b 6 7 fr_pa fr_pb [pos 6]); [reflexivity|apply fr_sol; left; reflexivity| |vm_compute; reflexivity|lia|exact fr_defa|right; left; reflexivity|vm_compute; lia|exact fr_clause_b].
  intros d [<-|[]]. eexists. split; [left; reflexivity|]. vm_compute. lia.
Qed.
(** the core of the next call contains only x1 *)
Lemma fr_core_ok : step_valid (kof rn_k fr_pb) fr_core.
Proof.
  exists [clause_pb [pos 0; pos 1]; clause_pb [pos 6]; clause_pb [neg 6; neg 4]; clause_pb fr_cl1]. split; [vm_compute; reflexivity|].
  unfold rup. apply (up_step _ _ (lb_negate (clause_pb [pos 1])) (axiom (neg 1))); [left; reflexivity| |].
  { intros a _ H. apply lb_negate_holds in H. destruct (ax_true a (axiom (neg 1))) eqn:E; [reflexivity|]. exfalso. apply H. apply lb_clause_holds. exists (axiom (pos 1)). split; [left; reflexivity|].
    revert E. unfold ax_true. cbn. destruct (a (PVs 1)); [reflexivity|discriminate]. }
  apply (up_step _ _ (clause_pb [pos 0; pos 1]) (axiom (pos 0))); [cbn; tauto| |].
  { intros a H1 H. apply lb_clause_holds in H. destruct H as (l & [<-|[<-|[]]] & H); [exact H|].
    specialize (H1 _ (or_introl eq_refl)). cbn in *. unfold ax_true in *. cbn in *. destruct (a (PVs 1)); discriminate. }
  apply (up_step _ _ (clause_pb [pos 6]) (axiom (pos 6))); [cbn; tauto| |].
  { intros a _ H. apply lb_clause_holds in H. destruct H as (l & [<-|[]] & H). exact H. }
  apply (up_step _ _ (clause_pb [neg 6; neg 4]) (axiom (neg 4))); [cbn; tauto| |].
  { intros a H1 H. apply lb_clause_holds in H. destruct H as (l & [<-|[<-|[]]] & H); [|exact H].
    specialize (H1 _ (or_introl eq_refl)). cbn in *. unfold ax_true in *. cbn in *. destruct (a (PVs 6)); discriminate. }
  apply (up_conflict _ _ (clause_pb fr_cl1)); [cbn; tauto|]. intros a Ha H.
  assert (A0 : a (PVs 0) = true) by (apply (pv_true a _ false); apply Ha; right; right; left; reflexivity).
  assert (A4 : a (PVs 4) = false) by (apply (pv_true a _ true); apply Ha; left; reflexivity).
  unfold lb_holds in H. cbn in H. unfold ax_true in H. cbn in H. rewrite A0, A4 in H. cbn in H. lia.
Qed.
Definition fr_F1 : list (nd_point assignment) := [mkNd [2; 0]%Z [fr_b]].
Lemma fr_run_b1 : fr_go (mkFs AtOuter (fr_st true 7 fr_pb1 fr_Lb1 [fr_b; fr_a]) fr_F1).
Proof.
  assert (H1 : fr_go (mkFs (AtBlocked fr_b) (fr_st true 7 fr_pb1 fr_Lb1 [fr_b; fr_a]) [])).
  { apply (pr_step _ _ _ _ _ _ fr_run_b); [|apply fr_wb1]. apply pm_work; [|reflexivity].
    apply (ev_derive rn_k 2 (inst_sol 2 ex_cls) (fr_cs 3 true) 7 fr_pb fr_Lb [fr_b; fr_a] fr_core true); [exact Logic.I|exact fr_core_ok|].
    intros v Hv. vm_compute in Hv. decompose [or] Hv; try contradiction; subst v; cbn; lia. }
  apply (pr_step _ _ _ _ _ _ H1); [|apply fr_wb1]. apply (pm_yield _ _ _ _ [] fr_b [neg 5; neg 1]); [reflexivity| |vm_compute; reflexivity].
  exists [neg 1], 23, (clause_pb [pos 1]). split; [intros l [<-|[]]; right; left; reflexivity|]. split; [vm_compute; tauto|split; reflexivity].
Qed.
(** the second point *)
Lemma fr_run_c : fr_go (mkFs (AtBlocked fr_c) (fr_st true 7 fr_pc fr_Lc [fr_c; fr_b; fr_a]) fr_F1).
Proof.
  assert (H1 : fr_go (mkFs (AtFound fr_wc) (fr_st true 7 fr_pb1 fr_Lb1 [fr_b; fr_a]) fr_F1)).
  { apply (pr_step _ _ _ _ _ _ fr_run_b1); [|apply fr_wb1]. apply pm_found. apply (fr_answer fr_wc false true false); [reflexivity|right; reflexivity|intros c [<-|[]]; reflexivity|vm_compute; reflexivity]. }
  apply (pr_step _ _ _ _ _ _ H1); [|apply fr_wc']. apply (pm_block rn_k 2 ex_cls _ (fr_st true 7 fr_pc fr_Lc [fr_c; fr_b; fr_a]) fr_F1 fr_wc); [|reflexivity].
  apply (fr_block fr_wc fr_c 7 7 fr_pb1 fr_pc [neg 1]); [reflexivity|apply fr_sol; right; reflexivity| |vm_compute; reflexivity|lia|exact fr_defb1|left; reflexivity|vm_compute; lia|exact fr_clause_c].
  intros d [<-|[<-|[]]]; (eexists; split; [left; reflexivity|]; vm_compute; lia).
Qed.
Definition fr_F2 : list (nd_point assignment) := [mkNd [2; 0]%Z [fr_b]; mkNd [0; 1]%Z [fr_c]].
Definition fr_end : fstate := mkFs AtOuter (fr_st true 7 fr_pd fr_Ld [fr_c; fr_b; fr_a]) fr_F2.
Lemma fr_unsat : forall A, solver_unsat rn_k (fr_st true 7 fr_pd fr_Ld [fr_c; fr_b; fr_a]) A.
Proof. intros A. exists [], 28, (clause_pb []). split; [intros l []|]. split; [vm_compute; tauto|split; reflexivity]. Qed.
Lemma fr_run : fr_go fr_end.
Proof.
  assert (H1 : fr_go (mkFs (AtBlocked fr_c) (fr_st true 7 fr_pd fr_Ld [fr_c; fr_b; fr_a]) fr_F1)).
  { apply (pr_step _ _ _ _ _ _ fr_run_c); [|apply fr_wd]. apply pm_work; [|reflexivity].
    apply (ev_derive rn_k 2 (inst_sol 2 ex_cls) (fr_cs 3 true) 7 fr_pc fr_Lc [fr_c; fr_b; fr_a] fr_last true); [exact Logic.I| |].
    - exists [clause_pb [pos 1]; clause_pb [neg 1]]. split; [vm_compute; reflexivity|]. unfold clause_pb at 3. apply (rup_two _ (map axiom []) [axiom (pos 1)]).
      + intros m [<-|[]]. exists (clause_pb [pos 1]). split; [left; reflexivity|]. intros a _ H. apply lb_clause_holds in H. destruct H as (l & [<-|[]] & H). exact H.
      + exists (clause_pb [neg 1]). split; [right; left; reflexivity|]. intros a _ Hm H. apply lb_clause_holds in H. destruct H as (l & [<-|[]] & H). specialize (Hm _ (or_introl eq_refl)).
        revert H Hm. unfold ax_true. cbn. destruct (a (PVs 1)); discriminate.
    - intros v Hv. vm_compute in Hv. destruct Hv. }
  apply (pr_step _ _ _ _ _ _ H1); [|apply fr_wd]. apply (pm_yield _ _ _ _ fr_F1 fr_c [neg 3; neg 4; neg 5]); [reflexivity|apply fr_unsat|vm_compute; reflexivity].
Qed.
Example C73_example : is_pareto_front ex_cls ex_rs [[2; 0]; [0; 1]]%Z /\ steps_valid rn_k (ps_log fr_pd).
Proof.
  assert (X : forall c b, In c (fr_cs 0 false) -> pe_extend (co_enc c) b = []) by (intros c b [<-|[<-|[]]]; reflexivity).
  assert (Fi : enc_fine (k_all (init_chk ex_cls (build_objs 0 ex_rs))) (fr_cs 0 false)) by (apply fr_fine; [lia|discriminate|intros v Hv; lia]).
  assert (Ok : Forall obj_ok ex_rs) by (constructor; [|constructor; [|constructor]]; (split; [left; repeat constructor; cbn; intuition discriminate|right; eexists; split; [left; reflexivity|discriminate]])).
  assert (Ft : Forall obj_fits ex_rs) by (repeat constructor; vm_compute; intuition discriminate).
  split.
  - exact (C73_finished 2 ex_cls ex_rs (fr_cs 0 false) fr_start fr_end Ok Ft rn_inst eq_refl X Fi (bst_refl _ _ _ _) fr_run (conj eq_refl (fr_unsat []))).
  - exact (proj1 (C73_front 2 ex_cls ex_rs (fr_cs 0 false) fr_start fr_end Ok Ft rn_inst eq_refl X Fi (bst_refl _ _ _ _) fr_run)).
Qed.
