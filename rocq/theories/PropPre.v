(** * Theorems about preprocessing, reindexing and the command-line pipeline *)
From Coq Require Import List Bool Arith Lia ZArith String FinFun.
From Verif Require Import Base BaseLemmas Spec MTypes MKernel MOll EncSpec TotSpec ApiSpec Inst ExInst MPrepro MMain PreSpec
  Ext Blk ApiTop PreproThm ReindexThm PreTop PreInst FileThm TotInst.
Import ListNotations.

(** ** C31: soft clauses *)

(** Feasible assignments of the instance solve the problem at no more than their cost, every
    solution of the problem extends to one with equal costs, and both have the same Pareto
    front. *)
Theorem C31_soft_clauses : forall pe p i,
  pb_enc_ok pe -> parsed_ok p -> to_clausal pe p = POk i ->
  (forall a, feasible (in_cls i) a ->
     p_feasible p a /\ weakly_dominates (p_costs p a) (costs (in_objs i) a)) /\
  (forall a, p_feasible p a -> exists b, (forall v, v < vm_next (pa_vm p) -> b v = a v) /\
     feasible (in_cls i) b /\ costs (in_objs i) b = p_costs p a) /\
  (forall a, feasible (in_cls i) a -> pareto_optimal (in_cls i) (in_objs i) (costs (in_objs i) a) ->
     costs (in_objs i) a = p_costs p a) /\
  (forall c, pareto_optimal (in_cls i) (in_objs i) c <-> p_optimal p c).
Proof.
  intros pe p i Hpe Hp Hi. split; [|split; [|split]].
  - exact (clausal_sound pe p i Hpe Hp Hi).
  - exact (clausal_complete pe p i Hpe Hp Hi).
  - intros a Ha Ho. symmetry. now apply (clausal_opt_costs pe p i Hpe Hp Hi).
  - exact (clausal_front pe p i Hpe Hp Hi).
Qed.
Print Assumptions C31_soft_clauses.
(** One literal per soft clause for all objectives; different soft clauses get different
    literals, longer ones a new variable *)
Theorem C31_shared_literals : forall pe p i,
  pb_enc_ok pe -> parsed_ok p -> to_clausal pe p = POk i ->
  exists f : clause -> lit,
    in_objs i = map (fun o => (map (fun cw => (f (fst cw), snd cw)) (fst o), snd o)) (pa_objs p) /\
    (forall l, f [l] = lnot l) /\
    (forall o cw, In o (pa_objs p) -> In cw (fst o) -> 1 < List.length (fst cw) ->
       exists v, f (fst cw) = pos v /\ vm_next (pa_vm p) <= v) /\
    (forall o o' cw cw', In o (pa_objs p) -> In o' (pa_objs p) -> In cw (fst o) -> In cw' (fst o') ->
       f (fst cw) = f (fst cw') -> fst cw = fst cw').
Proof. exact clausal_lits. Qed.
Print Assumptions C31_shared_literals.
(** Translation fails only if the external encoder fails. *)
Theorem C31_no_panic : forall pe p, pb_enc_ok pe -> parsed_ok p -> to_clausal pe p <> PPanic.
Proof. exact clausal_no_panic. Qed.
Print Assumptions C31_no_panic.
Example C31_example : parsed_ok exp_p /\ pb_enc_ok pb_brute /\
  match to_clausal pb_brute exp_p with
  | POk i => in_objs i = [([(pos 0, 3); (pos 5, 2)], 0%Z); ([(neg 0, 1); (pos 5, 4); (pos 4, 2)], (-1)%Z)]
             /\ in_vm i = mkVm 6 4 5 /\ In [neg 1; neg 2; pos 5] (map (fun c => c) (in_cls i))
  | _ => False
  end.
Proof.
  split; [exact exp_p_ok|]. split; [exact pb_brute_ok|]. vm_compute. repeat split. auto 20.
Qed.

(** ** C32: reindexing renames variables *)
Theorem C32_reindexing : forall i j r, inst_ok i -> reindexing i = Some (r, j) ->
  exists f : nat -> nat,
    (forall u v, occurs i u -> occurs i v -> f u = f v -> u = v) /\
    (forall x, x <= vm_max_enc (in_vm j) <-> exists v, occurs i v /\ f v = x) /\
    (forall b, feasible (in_cls j) b <-> feasible (in_cls i) (fun v => b (f v))) /\
    (forall a : asg, exists b : asg, forall v, occurs i v -> b (f v) = a v) /\
    ((forall ro w, In ro (in_objs i) -> uniform ro w -> w = 1) ->
       (forall b, costs (in_objs j) b = costs (in_objs i) (fun v => b (f v))) /\
       (forall c, pareto_optimal (in_cls j) (in_objs j) c <-> pareto_optimal (in_cls i) (in_objs i) c)).
Proof.
  intros i j r HI Hr. exists (ri_map r). split; [|split; [|split; [|split]]].
  - exact (reindex_inj i j r Hr).
  - exact (reindex_onto i j r Hr).
  - exact (reindex_feasible i j r Hr).
  - exact (reindex_back i j r Hr).
  - intros Hu. split; [intros b; exact (reindex_costs_eq i j r Hr b (io_ok i HI) Hu)|].
    intros c. exact (reindex_front i j r Hr c (io_ok i HI) Hu).
Qed.
Print Assumptions C32_reindexing.
(** In general: an objective whose weights all equal [w] is divided by [w] (without its offset),
    the others are unchanged; so the optimal assignments are the same. *)
Theorem C32_scaled_costs : forall i j r, inst_ok i -> reindexing i = Some (r, j) ->
  exists f : nat -> nat,
    (forall b k ro x y, nth_error (in_objs i) k = Some ro ->
       nth_error (costs (in_objs i) (fun v => b (f v))) k = Some x ->
       nth_error (costs (in_objs j) b) k = Some y ->
       (forall w, uniform ro w -> (x - snd ro = Z.of_nat w * (y - snd ro))%Z) /\
       ((forall w, ~ uniform ro w) -> x = y)) /\
    (forall b, feasible (in_cls j) b ->
       (pareto_optimal (in_cls j) (in_objs j) (costs (in_objs j) b) <->
        pareto_optimal (in_cls i) (in_objs i) (costs (in_objs i) (fun v => b (f v))))).
Proof.
  intros i j r HI Hr. exists (ri_map r). split.
  - intros b k ro x y Hk Hx Hy. pose proof (reindex_costs i j r Hr b (io_ok i HI)) as H.
    destruct (Forall2_nth_left _ _ _ H k ro Hk) as ((x' & y') & Hc & Hs).
    assert (nth_error (combine (costs (in_objs i) (fun v => b (ri_map r v))) (costs (in_objs j) b)) k = Some (x, y)) as G.
    { clear -Hx Hy. revert k Hx Hy. generalize (costs (in_objs i) (fun v => b (ri_map r v))) as xs.
      generalize (costs (in_objs j) b) as ys. intros ys xs. revert ys.
      induction xs as [|x0 xs IH]; intros ys [|k] Hx Hy; destruct ys; cbn in *; try discriminate; [congruence|eauto]. }
    rewrite G in Hc. injection Hc as <- <-. exact Hs.
  - intros b Hb. exact (reindex_optimal i j r Hr b (io_ok i HI) Hb).
Qed.
Print Assumptions C32_scaled_costs.
Definition exr_sparse : inst := mkInst [[pos 7; neg 2]; [neg 7]] [([(pos 9, 2); (neg 2, 1)], 3%Z)] (mkVm 10 9 9).
Example C32_example : option_map (fun rj => (in_cls (snd rj), in_objs (snd rj), in_vm (snd rj), ri_out (fst rj))) (reindexing exr_sparse)
  = Some ([[pos 2; neg 1]; [neg 2]], [([(pos 0, 2); (neg 1, 1)], 3%Z)], mkVm 3 2 2, [9; 2; 7]).
Proof. vm_compute. reflexivity. Qed.

(** ** C33: reindexing divides the reported costs (refuted) *)
Definition exp_run reindex al p :=
  run_main TI pb_brute reindex al (ex_opts NoEnum) None (env false 200) lims_none p.
Definition printed (r : main_res) : list (list Z) :=
  match r with RFront _ f => map nd_costs f | _ => [] end.
Theorem C33_reindexing_refuted :
  ~ (forall p al, parsed_ok p ->
       forall c, In c (printed (exp_run true al p)) <-> In c (printed (exp_run false al p))).
Proof.
  intros H. assert (Hp : parsed_ok exp_u).
  { constructor.
    - reflexivity.
    - intros c v [<-|[]] Hv; cbn in *; lia.
    - intros o cw v Ho Hcw Hv. destruct Ho as [<-|[<-|[]]]; destruct Hcw as [<-|[<-|[]]]; cbn in *; lia.
    - constructor; [|constructor; [|constructor]]; (split; [|split; [|split]]).
      + intros cw [<-|[<-|[]]]; discriminate.
      + left. repeat constructor; cbn; intuition discriminate.
      + right. exists ([neg 0], 2). split; [now left|discriminate].
      + cbn. unfold isize_max, isize_min. lia.
      + intros cw [<-|[<-|[]]]; discriminate.
      + left. repeat constructor; cbn; intuition discriminate.
      + right. exists ([neg 1], 3). split; [now left|discriminate].
      + cbn. unfold isize_max, isize_min. lia. }
  specialize (H exp_u APMinimal Hp [1; 2]%Z).
  assert (G : In [1; 2]%Z (printed (exp_run true APMinimal exp_u))) by (vm_compute; auto).
  destruct H as [H _]. specialize (H G). vm_compute in H. intuition discriminate.
Qed.
Print Assumptions C33_reindexing_refuted.
Example C33_values :
  (printed (exp_run false APMinimal exp_u), printed (exp_run true APMinimal exp_u))
  = ([[2; 4]], [[1; 2]])%Z.
Proof. vm_compute. reflexivity. Qed.

(** ** C34: reverse reindexing *)
Theorem C34_reverse_solution : forall i j r, reindexing i = Some (r, j) ->
  exists f : nat -> nat,
    (forall u v, occurs i u -> occurs i v -> f u = f v -> u = v) /\
    (forall b, feasible (in_cls j) b <-> feasible (in_cls i) (fun v => b (f v))) /\
    forall sol v,
      (v <= vm_max_orig (in_vm i) -> occurs i v ->
         var_value (reverse_sol r sol) v = var_value sol (f v)) /\
      (~ occurs i v \/ vm_max_orig (in_vm i) < v -> var_value (reverse_sol r sol) v = None).
Proof.
  intros i j r Hr. exists (ri_map r). split; [exact (reindex_inj i j r Hr)|].
  split; [exact (reindex_feasible i j r Hr)|]. exact (reverse_sol_value i j r Hr).
Qed.
Print Assumptions C34_reverse_solution.
Example C34_example : option_map (fun rj => reverse_sol (fst rj) [Some true; Some false; None]) (reindexing exr_sparse)
  = Some [None; None; Some false; None; None; None; None; None; None; Some true].
Proof. vm_compute. reflexivity. Qed.

(** ** C35: fresh variables *)

(** Once the variables below [w] are in use -- because [new_var] returned [w - 1], or
    [increase_next_free] or [combine] claimed them -- and no later [forget_from] gives them
    back, [new_var] returns none of them. *)
Theorem C35_fresh : forall vm ops1 op ops2 xs x ys vm1 vm2 vm3 v vm4,
  vm_run ops1 vm = Some (xs, vm1) -> vm_step op vm1 = Some (x, vm2) ->
  vm_run ops2 vm2 = Some (ys, vm3) -> vm_new_var vm3 = (v, vm4) ->
  (keeps (claims op x) ops2 -> claims op x <= v) /\
  (keeps (vm_next vm) (ops1 ++ [op] ++ ops2) -> vm_next vm <= v) /\
  vm_max_var vm4 = Some v /\ vm_n_used vm4 = S v.
Proof.
  intros vm ops1 op ops2 xs x ys vm1 vm2 vm3 v vm4 H1 H2 H3 H4. injection H4 as <- <-.
  split; [|split; [|split; reflexivity]].
  - intros Hk. apply (vm_run_keep ops2 vm2 ys vm3 _ H3); [|exact Hk].
    apply (vm_step_keep op vm1 x vm2 0 H2); [lia|]. intros m _. lia.
  - intros Hk.
    assert (K1 : vm_next vm <= vm_next vm1).
    { apply (vm_run_keep ops1 vm xs vm1 _ H1); [lia|]. intros m Hm. apply Hk. apply in_or_app. now left. }
    apply (vm_run_keep ops2 vm2 ys vm3 _ H3).
    + apply (vm_step_keep op vm1 x vm2 _ H2 K1). intros m Hm. apply Hk. apply in_or_app. right. apply in_or_app. now left.
    + intros m Hm. apply Hk. apply in_or_app. right. apply in_or_app. now right.
Qed.
Print Assumptions C35_fresh.
Example C35_example :
  vm_run [VNew; VIncrease 9; VNew; VForget 9; VNew; VMarkEnc; VCombine (mkVm 20 0 0); VNew] (mkVm 4 3 3)
  = Some ([Some 4; None; Some 9; None; Some 9; None; None; Some 20], mkVm 21 3 9).
Proof. vm_compute. reflexivity. Qed.
(** [increase_next_free] tells whether it raised the next variable, and only ever raises it. *)
Theorem C35_increase_flag : forall vm v b vm', vm_increase vm v = (b, vm') ->
  (b = true <-> fst (vm_new_var vm) < fst (vm_new_var vm')) /\
  fst (vm_new_var vm') = Nat.max (fst (vm_new_var vm)) v /\
  vm_max_orig vm' = vm_max_orig vm /\ vm_max_enc vm' = vm_max_enc vm.
Proof.
  intros vm v b vm' H. unfold vm_increase in H. cbn [fst vm_new_var].
  destruct (Nat.ltb_spec (vm_next vm) v); injection H as <- <-; cbn [vm_next vm_max_orig vm_max_enc];
    (split; [split; [intros; try discriminate; lia|intros; try reflexivity; lia]|]); (split; [lia|split; reflexivity]).
Qed.
Print Assumptions C35_increase_flag.
(** The original variables stay among the encoded ones, and these stay in use, as long as no
    variables are given back. *)
Theorem C35_marks_nested : forall a b vm ops xs vm',
  vm_new a b = Some vm -> vm_run ops vm = Some (xs, vm') -> (forall m, ~ In (VForget m) ops) ->
  vm_max_orig vm' <= vm_max_enc vm' /\ vm_max_enc vm' < vm_next vm'.
Proof.
  intros a b vm ops xs vm' Hn. unfold vm_new in Hn. destruct (Nat.leb_spec a b) as [Hab|]; [|discriminate].
  assert (H0 : vm_max_orig vm <= vm_max_enc vm /\ vm_max_enc vm < vm_next vm) by (injection Hn as <-; cbn; lia).
  clear Hn Hab a b. revert vm xs H0. induction ops as [|op r IH]; intros vm xs H0 H Hk; cbn [vm_run] in H.
  - now injection H as <- <-.
  - destruct (vm_step op vm) as [[x vm1]|] eqn:E; [|discriminate].
    destruct (vm_run r vm1) as [[ys vm2]|] eqn:E2; [|discriminate]. injection H as <- <-.
    apply (IH vm1 ys); [|exact E2|intros m Hm; apply (Hk m); now right].
    destruct op as [|v|o|v| |]; cbn [vm_step vm_new_var] in E.
    + injection E as <- <-. cbn. lia.
    + injection E as <- <-. unfold vm_increase. destruct (Nat.ltb_spec (vm_next vm) v); cbn; lia.
    + injection E as <- <-. unfold vm_combine. destruct (Nat.ltb_spec (vm_next vm) (vm_next o)); cbn; lia.
    + destruct (Hk v). now left.
    + unfold vm_mark_max_orig in E. destruct (vm_next vm) eqn:e; [lia|]. injection E as <- <-. cbn. lia.
    + unfold vm_mark_max_enc in E. destruct (vm_next vm) eqn:e; [lia|]. injection E as <- <-. cbn. lia.
Qed.
Print Assumptions C35_marks_nested.
Example C35_marks_example : exists vm vm' xs, vm_new 2 3 = Some vm /\
  vm_run [VNew; VMarkOrig; VIncrease 9; VMarkEnc] vm = Some (xs, vm') /\ vm' = mkVm 9 4 8.
Proof. repeat eexists; vm_compute; reflexivity. Qed.
(** Giving variables back first can invert the order. *)
Example C35_marks_forget : option_map snd (vm_run [VForget 2; VMarkEnc] (mkVm 4 3 3)) = Some (mkVm 2 3 1).
Proof. vm_compute. reflexivity. Qed.
(** Marking the maximum variable of an empty manager panics. *)
Example C35_mark_empty : vm_run [VMarkOrig] vm_default = None.
Proof. reflexivity. Qed.

(** ** C46: numbering of input constraints *)
Theorem C46_constraint_ids : forall p cs, proof_constrs p = Some cs ->
  List.length (constr_ids cs) = List.length cs /\
  (forall k id, nth_error (constr_ids cs) k = Some id ->
     id = 1 + list_sum (map proof_size (firstn k cs))) /\
  n_constraints cs = list_sum (map proof_size cs) /\
  snd (constr_ids_from 1 cs) = 1 + n_constraints cs /\
  exists extra, cs = pa_constrs p ++ map pb_of_clause extra.
Proof.
  intros p cs Hcs. destruct (constr_ids_spec cs 1) as (H1 & H2 & H3).
  split; [exact H1|]. split; [exact H2|]. split; [apply n_constraints_sum|].
  split; [rewrite n_constraints_sum; exact H3|].
  unfold proof_constrs in Hcs. destruct (process_objectives _ _) as [[ros s]|] eqn:E; [|discriminate].
  injection Hcs as <-. exact (process_objectives_constrs _ _ _ _ E).
Qed.
Print Assumptions C46_constraint_ids.
Example C46_example : option_map (fun cs => (constr_ids cs, n_constraints cs))
  (proof_constrs (mkParsed [mkPb PbUb [(pos 0, 1)] 0; mkPb PbEq [(pos 0, 1); (pos 1, 1)] 1; mkPb PbLb [(pos 2, 1)] 1]
     [([([pos 0; pos 1], 2)], 0%Z)] (mkVm 3 2 2)))
  = Some ([1; 2; 4; 5], 5).
Proof. vm_compute. reflexivity. Qed.

(** ** C51: file formats *)
Theorem C51_infer_format : forall name c,
  parse_format name FInfer = c <-> exists d, deciding name d /\ by_ext d c.
Proof. exact infer_format. Qed.
Print Assumptions C51_infer_format.
Theorem C51_explicit_format : forall name,
  parse_format name FDimacs = PcClausal /\ parse_format name FOpb = PcPseudoBoolean.
Proof. split; reflexivity. Qed.
Print Assumptions C51_explicit_format.
Example C51_example :
  map (fun n => parse_format n FInfer)
    ["a.mcnf"; "a.b.opb.gz"; "x.pbmo.xz"; "a.gz"; ".opb"; "noext"; "a.gz.gz"; "a.txt"; ".opb.gz"; "a.OPB"]%string
  = [PcClausal; PcPseudoBoolean; PcPseudoBoolean; PcNoExt; PcNoExt; PcNoExt; PcUnknownExt "gz"; PcUnknownExt "txt";
     PcNoExt; PcUnknownExt "OPB"].
Proof. vm_compute. reflexivity. Qed.

(** ** C53: conversion of fronts *)
Theorem C53_convert_front : forall S T (g : S -> T) (f : front S),
  map nd_costs (front_convert g f) = map nd_costs f /\
  map (fun p => List.length (nd_sols p)) (front_convert g f) = map (fun p => List.length (nd_sols p)) f /\
  (forall k p, nth_error f k = Some p ->
     exists q, nth_error (front_convert g f) k = Some q /\ nd_costs q = nd_costs p /\
       forall n s, nth_error (nd_sols p) n = Some s -> nth_error (nd_sols q) n = Some (g s)).
Proof.
  intros S T g f. split; [apply front_convert_costs|]. split.
  - unfold front_convert. rewrite map_map. apply map_ext. intros p. cbn. apply map_length.
  - intros k p Hk. exists (nd_convert g p). split; [|split; [reflexivity|]].
    + unfold front_convert. now apply map_nth_error.
    + intros n s Hn. cbn. now apply map_nth_error.
Qed.
Print Assumptions C53_convert_front.
Example C53_example : front_convert (fun n => n + 1) [mkNd [1%Z] [1; 2]; mkNd [0%Z] [3]]
  = [mkNd [1%Z] [2; 3]; mkNd [0%Z] [4]].
Proof. reflexivity. Qed.

(** ** C57: the pipeline reports the Pareto front of the parsed problem *)
Theorem C57_pipeline : forall I (SP : enc_spec I) T (TS : tot_spec SP T) pe reindex al o cb E l p,
  pb_enc_ok pe -> parsed_ok p -> enum_fits reindex p o -> oracle_ok E -> lims_pos l ->
  (reindex = true -> weights_mixed p) -> cb_fits al o cb E p ->
  match run_main T pe reindex al o cb E l p with
  | RFront finished f => p_front p f /\ (finished = true -> p_exact p f)
  | RErr => True
  | RPanic =>
      (reindex = true /\ exists i, to_clausal pe p = POk i /\ forall v, ~ occurs i v) \/ cb_dead o cb p
  | ROutOfFuel =>
      (exists j, solved_inst pe reindex p = Some j /\ ev_fuel E <= iter_bound j) \/ cb_dead o cb p
  end.
Proof. exact main_correct. Qed.
Print Assumptions C57_pipeline.
Theorem C57_pipeline_finishes : forall I (SP : enc_spec I) T (TS : tot_spec SP T) pe reindex al o cb E p j,
  pb_enc_ok pe -> parsed_ok p -> enum_fits reindex p o -> oracle_ok E -> calm E ->
  (cb <> None -> reindex = true -> weights_mixed p) -> cb_fits al o cb E p -> ~ cb_dead o cb p ->
  solved_inst pe reindex p = Some j -> (al = ABiOptSat -> List.length (pa_objs p) = 2) ->
  iter_bound j < ev_fuel E ->
  exists f, run_main T pe reindex al o cb E lims_none p = RFront true f.
Proof. exact main_finishes. Qed.
Print Assumptions C57_pipeline_finishes.
Lemma exp_p_fits al o opts first fuel : (cb_reset opts = true -> o_store_cnf o = true) ->
  cb_fits al o (Some opts) (env first fuel) exp_p.
Proof.
  intros Ho opts' [= <-]. split; [apply brute_core_nodup|]. split.
  - intros ob [<-|[<-|[]]]; repeat constructor; cbn; intuition discriminate.
  - split; [exact Ho|].
    assert (F0 : p_feasible exp_p (fun v => v =? 0)) by (repeat constructor; vm_compute; discriminate).
    assert (F1 : p_feasible exp_p (fun v => v =? 1)) by (repeat constructor; vm_compute; discriminate).
    intros _ ob [<-|[<-|[]]] Hc a Ha; exfalso; pose proof (Hc _ _ F0 F1) as G; vm_compute in G; discriminate.
Qed.
Example C57_hypotheses : pb_enc_ok pb_brute /\ parsed_ok exp_p /\
  (forall reindex, enum_fits reindex exp_p (ex_opts (Solutions None))) /\
  enum_fits true exp_p (ex_opts (PMCSs None)) /\
  oracle_ok (env false 200) /\ lims_pos lims_none /\ weights_mixed exp_p /\
  (forall al, cb_fits al (ex_opts NoEnum) (Some (mkCb true true)) (env false 200) exp_p) /\
  ~ cb_dead (ex_opts NoEnum) (Some (mkCb true true)) exp_p.
Proof.
  split; [exact pb_brute_ok|]. split; [exact exp_p_ok|]. split; [intros r s; reflexivity|].
  split; [left; reflexivity|]. split; [apply brute_ok|]. split; [exact lims_none_pos|]. split; [exact exp_p_mixed|].
  split; [intros al; now apply exp_p_fits|]. intros (_ & H & _). apply (H (fun v => v =? 1)).
  repeat constructor; vm_compute; discriminate.
Qed.
Definition exp_cb reindex al opts p :=
  run_main TI pb_brute reindex al (ex_opts NoEnum) (Some opts) (env false 200) lims_none p.
Example C57_run : (map (fun al => printed (exp_run true al exp_p)) [APMinimal; ALowerBounding; ABiOptSat],
    map (fun al => printed (exp_cb true al (mkCb true false) exp_p)) [APMinimal; ALowerBounding; ABiOptSat],
    map (fun al => printed (exp_cb false al (mkCb false true) exp_p)) [APMinimal; ALowerBounding; ABiOptSat])
  = ([[[0; 0]; [3; -1]]; [[0; 0]; [3; -1]]; [[0; 0]; [3; -1]]],
     [[[0; 0]; [3; -1]]; [[0; 0]; [3; -1]]; [[0; 0]; [3; -1]]],
     [[[0; 0]; [3; -1]]; [[0; 0]; [3; -1]]; [[0; 0]; [3; -1]]])%Z.
Proof. vm_compute. reflexivity. Qed.
(** An infeasible problem: the empty front, found during core boosting *)
Definition exp_inf : parsed := mkParsed
  [ mkPb PbLb [(pos 0, 1); (pos 1, 1)] 3 ] [ ([([neg 0], 1); ([neg 1], 1)], 0%Z) ] (mkVm 2 1 1).
Example C57_infeasible : exp_cb false APMinimal (mkCb true false) exp_inf = RFront true [].
Proof. vm_compute. reflexivity. Qed.
(** The exception is real: if the oracle always returns all assumptions as the core, core
    minimization ends with an empty core, which core boosting takes for progress. *)
Definition lazy_answer (q : query) : answer :=
  match brute false q with AUnsat _ => AUnsat (map lnot (q_assumps q)) | x => x end.
Definition lazy_env (fuel : nat) : environ := mkEnv lazy_answer (fun _ => false) (fun _ => false) fuel.
Lemma lazy_ok fuel : oracle_ok (lazy_env fuel).
Proof.
  intros q. pose proof (brute_ok_env (lazy_env fuel) false q) as H. cbn [lazy_env ev_oracle]. unfold lazy_answer.
  destruct (brute false q) as [m|core| | ]; try exact H. destruct H as [H1 H2]. split.
  - intros l Hl. apply in_map_iff in Hl. destruct Hl as (l' & <- & Hl). now rewrite lnot_lnot.
  - intros m Hm. specialize (H2 m Hm). apply clause_true_iff in H2. destruct H2 as (l & Hl & Ht).
    apply clause_true_iff. exists l. split; [|exact Ht]. apply H1 in Hl. apply (in_map lnot) in Hl.
    now rewrite lnot_lnot in Hl.
Qed.
Lemma lazy_nodup fuel : core_nodup (lazy_env fuel).
Proof.
  intros q core H HN. cbn [lazy_env ev_oracle] in H. unfold lazy_answer in H.
  destruct (brute false q); try discriminate. injection H as <-.
  apply Injective_map_NoDup; [|exact HN].
  intros x y E. rewrite <- (lnot_lnot x), <- (lnot_lnot y). now f_equal.
Qed.
Definition min_opts : kopts := mkOpts NoEnum true true false true false true default_blocking_clause.
Example C57_dead : cb_dead min_opts (Some (mkCb true false)) exp_inf /\ oracle_ok (lazy_env 200) /\
  cb_fits APMinimal min_opts (Some (mkCb true false)) (lazy_env 200) exp_inf /\
  run_main TI pb_brute false APMinimal min_opts (Some (mkCb true false)) (lazy_env 200) lims_none exp_inf = ROutOfFuel /\
  option_map (fun j => iter_bound j <? 200) (solved_inst pb_brute false exp_inf) = Some true.
Proof.
  split; [|split; [apply lazy_ok|split; [|split; vm_compute; reflexivity]]].
  - split; [discriminate|]. split.
    + intros a Ha. inversion Ha as [|? ? H _]; subst. unfold pb_holds in H. cbn in H.
      revert H. destruct (a 0), (a 1); cbn; lia.
    + now left.
  - intros opts' [= <-]. split; [apply lazy_nodup|]. split; [|split; discriminate].
    intros ob [<-|[]]. repeat constructor; cbn; intuition discriminate.
Qed.

(** ** C58: enumeration with reindexing prints a solution twice (refuted) *)
Definition enum_run pe reindex p : main_res :=
  run_main TI pe reindex APMinimal (ex_opts (Solutions None)) None (env false 400) lims_none p.
Theorem C58_duplicates_refuted :
  ~ (forall pe p reindex finished f, pb_enc_ok pe -> parsed_ok p ->
       (reindex = true -> weights_mixed p) -> enum_run pe reindex p = RFront finished f ->
       Forall (fun nd => NoDup (nd_sols nd)) f).
Proof.
  intros H.
  assert (Hp : parsed_ok exp_d).
  { constructor.
    - reflexivity.
    - intros c v [<-|[]] Hv; cbn in *; lia.
    - intros o cw v [<-|[]] Hcw Hv. destruct Hcw as [<-|[<-|[]]]; cbn in *; lia.
    - constructor; [|constructor]; (split; [|split; [|split]]).
      + intros cw [<-|[<-|[]]]; discriminate.
      + left. repeat constructor; cbn; intuition discriminate.
      + right. exists ([neg 0], 1). split; [now left|discriminate].
      + cbn. unfold isize_max, isize_min. lia. }
  assert (Hm : weights_mixed exp_d).
  { intros o w [<-|[]] _ G. pose proof (G ([neg 0], 1) (or_introl eq_refl)) as G1. symmetry. exact G1. }
  assert (Hr : exists f, enum_run pb_oneway true exp_d = RFront true f /\
    ~ Forall (fun nd => NoDup (nd_sols nd)) f).
  { eexists. split; [vm_compute; reflexivity|]. intros G. inversion G as [|? ? G1 _]; subst. cbn [nd_sols] in G1.
    inversion G1; subst. cbn in *. tauto. }
  destruct Hr as (f & Hf & Hn). apply Hn. eapply (H pb_oneway exp_d true true f); eauto using pb_oneway_ok.
Qed.
Print Assumptions C58_duplicates_refuted.
Definition exp_sols reindex : list (list assignment) :=
  match enum_run pb_oneway reindex exp_d with RFront _ f => map nd_sols f | _ => [] end.
Example C58_values : (exp_sols false, exp_sols true) =
  ([[[Some false; Some false; Some false]; [Some false; Some false; Some true]]],
   [[[Some false; Some false; Some false]; [Some false; Some false; Some false];
     [Some false; Some false; Some true]]]).
Proof. vm_compute. reflexivity. Qed.

(** ** C59: reindexing panics on instances without variables *)
Theorem C59_reindexing_panics : forall i, reindexing i = None <-> forall v, ~ occurs i v.
Proof. exact reindexing_panic. Qed.
Print Assumptions C59_reindexing_panics.
Example C59_run : (exp_run false APMinimal exp_0, exp_run true APMinimal exp_0) =
  (RFront true [mkNd [5%Z] [[Some false; Some false; Some false]]], RPanic).
Proof. vm_compute. reflexivity. Qed.

(** ** C60: forgetting variables in a reindexer (refuted) *)
Theorem C60_forget_refuted :
  ~ (forall vs m v, let r := ri_forget_from (fold_left (fun r v => snd (ri_reindex r v)) vs (ri_new 99)) m in
       let (x, r') := ri_reindex r v in ri_reverse r' x = Some v).
Proof. intros H. specialize (H [10; 11] 1 12). vm_compute in H. discriminate. Qed.
Print Assumptions C60_forget_refuted.
(** Without [forget_from] it holds. *)
Theorem C60_reverse : forall vs m v,
  let r := fold_left (fun r v => snd (ri_reindex r v)) vs (ri_new m) in
  let (x, r') := ri_reindex r v in ri_reverse r' x = Some v.
Proof.
  intros vs m v. assert (H : ri_inv (fold_left (fun r v => snd (ri_reindex r v)) vs (ri_new m))).
  { assert (G : forall r, ri_inv r -> ri_inv (fold_left (fun r v => snd (ri_reindex r v)) vs r)).
    { induction vs as [|u us IH]; intros r Hr; cbn [fold_left]; [exact Hr|]. apply IH.
      destruct (ri_reindex r u) as [x r'] eqn:E. now apply (ri_reindex_ok r u x r'). }
    apply G, ri_inv_new. }
  cbv zeta. destruct (ri_reindex _ v) as [x r'] eqn:E.
  destruct (ri_reindex_ok _ v x r' H E) as (H1 & _ & _ & H4 & H5).
  assert (Hd : ri_dom r' v) by (apply H5; now right). unfold ri_dom in Hd. unfold ri_map in H4.
  destruct (ri_get (ri_in r') v) as [y|] eqn:Ey; [|contradiction]. subst x. now apply (rv_get r' H1).
Qed.
Print Assumptions C60_reverse.
(** What [forget_from] does keep: variables with a smaller image keep it, in both directions, and
    all other variables get the next free number, which is the forgotten one. *)
Theorem C60_forget_keeps : forall vs old_max m v,
  let r := fold_left (fun r v => snd (ri_reindex r v)) vs (ri_new old_max) in
  let r' := ri_forget_from r m in
  (forall x, ri_reverse r x = Some v -> x < m ->
     ri_reindex r' v = (x, r') /\ ri_reverse r' x = Some v) /\
  ((forall x, ri_reverse r x = Some v -> m <= x) -> fst (ri_reindex r' v) = Nat.min (ri_next r) m).
Proof.
  intros vs old_max m v r r'.
  assert (H : ri_inv r).
  { assert (G : forall r, ri_inv r -> ri_inv (fold_left (fun r v => snd (ri_reindex r v)) vs r)).
    { clear r r'. induction vs as [|u us IH]; intros r Hr; cbn [fold_left]; [exact Hr|]. apply IH.
      destruct (ri_reindex r u) as [x r'] eqn:E. now apply (ri_reindex_ok r u x r'). }
    apply G, ri_inv_new. }
  assert (Hu : NoDup (map fst (ri_in r))).
  { assert (G : forall r, NoDup (map fst (ri_in r)) ->
      NoDup (map fst (ri_in (fold_left (fun r v => snd (ri_reindex r v)) vs r)))).
    { clear. induction vs as [|u us IH]; intros r Hr; cbn [fold_left]; [exact Hr|]. apply IH.
      unfold ri_reindex. destruct (ri_get (ri_in r) u) eqn:e; [exact Hr|]. cbn. constructor; [|exact Hr].
      clear - e. intros Hin. induction (ri_in r) as [|[k x] l IHl]; cbn in *; [exact Hin|].
      destruct (Nat.eqb_spec k u); [discriminate|]. destruct Hin as [->|Hin]; [congruence|auto]. }
    apply G. constructor. }
  assert (Hf : forall l, NoDup (map fst l) -> ri_get (filter (fun kv : nat * nat => snd kv <? m) l) v =
    match ri_get l v with Some x => if x <? m then Some x else None | None => None end).
  { clear. induction l as [|[k x] l IHl]; intros Hn; [reflexivity|]. cbn [map fst] in Hn.
    inversion Hn as [|? ? Hk Hn']; subst. specialize (IHl Hn'). cbn [filter snd ri_get].
    destruct (x <? m) eqn:ex; cbn [ri_get]; (destruct (Nat.eqb_spec k v) as [->|]; [|exact IHl]).
    - now rewrite ex.
    - rewrite IHl, ex. destruct (ri_get l v) as [y|] eqn:e; [|reflexivity]. exfalso. apply Hk.
      clear - e. induction l as [|[k z] l IHl]; cbn in *; [discriminate|].
      destruct (Nat.eqb_spec k v) as [->|]; auto. }
  specialize (Hf (ri_in r) Hu). change (ri_get (ri_in r') v = match ri_get (ri_in r) v with
    Some x => if x <? m then Some x else None | None => None end) in Hf.
  split.
  - intros x Hx Hm. pose proof Hx as Hx'. apply (proj2 (rv_get r H v x)) in Hx'. rewrite Hx' in Hf.
    replace (x <? m) with true in Hf by (symmetry; apply Nat.ltb_lt; exact Hm).
    split; [unfold ri_reindex; now rewrite Hf|].
    unfold ri_reverse, r', ri_forget_from. cbn [ri_out].
    rewrite <- Hx. unfold ri_reverse. generalize (ri_out r). intros l. clear - Hm. revert x m Hm.
    induction l as [|a l IHl]; intros [|x] [|m] Hm; try reflexivity; try lia.
    change (nth_error (firstn (S m) l) x = nth_error l x). apply IHl. lia.
  - intros Hx. unfold ri_reindex. rewrite Hf. destruct (ri_get (ri_in r) v) as [x|] eqn:e; [|reflexivity].
    apply (proj1 (rv_get r H v x)) in e. specialize (Hx x e).
    replace (x <? m) with false by (symmetry; apply Nat.ltb_ge; exact Hx). reflexivity.
Qed.
Print Assumptions C60_forget_keeps.
Example C60_forget_example :
  let r := ri_forget_from (fold_left (fun r v => snd (ri_reindex r v)) [10; 11; 12] (ri_new 99)) 2 in
  map (fun v => fst (ri_reindex r v)) [10; 11; 12; 13] = [0; 1; 2; 2].
Proof. vm_compute. reflexivity. Qed.
(** Taking a new variable ([new_var]) has the opposite effect: it leaves no reverse entry, and later
    ones are shifted down. *)
Theorem C60_new_var_refuted :
  ~ (forall vs v, let r := snd (ri_new_var (fold_left (fun r v => snd (ri_reindex r v)) vs (ri_new 99))) in
       let (x, r') := ri_reindex r v in (forall u, In u vs -> u <> v) -> ri_reverse r' x = Some v).
Proof.
  intros H. specialize (H [10] 12). vm_compute in H.
  assert (G : None = Some 12) by (apply H; intros u [<-|[]] E; discriminate E). discriminate G.
Qed.
Print Assumptions C60_new_var_refuted.
(** A variable from [new_var] is different from the images of all variables, earlier and later. *)
Theorem C60_new_var_fresh : forall vs old_max v,
  let r := fold_left (fun r v => snd (ri_reindex r v)) vs (ri_new old_max) in
  let (n, r1) := ri_new_var r in
  fst (ri_reindex r1 v) <> n /\ ri_max_var r1 = Some n.
Proof.
  intros vs old_max v r. cbn [ri_new_var]. split; [|reflexivity].
  assert (H : ri_inv r).
  { assert (G : forall r, ri_inv r -> ri_inv (fold_left (fun r v => snd (ri_reindex r v)) vs r)).
    { clear r. induction vs as [|u us IH]; intros r Hr; cbn [fold_left]; [exact Hr|]. apply IH.
      destruct (ri_reindex r u) as [x r'] eqn:E. now apply (ri_reindex_ok r u x r'). }
    apply G, ri_inv_new. }
  unfold ri_reindex. cbn [ri_in ri_next].
  destruct (ri_get (ri_in r) v) as [x|] eqn:e; cbn [fst]; [|lia].
  apply (proj1 (rv_get r H v x)) in e. pose proof (rv_len r H).
  assert (x < List.length (ri_out r)) by (apply nth_error_Some; congruence). lia.
Qed.
Print Assumptions C60_new_var_fresh.
