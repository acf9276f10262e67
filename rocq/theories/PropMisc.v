(** * Costs, blocking clauses, linear search, P-minimal cuts and the fence *)
From Coq Require Import List Bool Arith Lia ZArith.
From Verif Require Import Base BaseLemmas Spec MTypes MKernel MPMinimal MLowerBounding MBiOptSat
  EncSpec Inst Wp Sem Kern ApiSpec Ext Blk ExInst ApiTop ReachTop PropFront.
Import ListNotations.

(** ** C22 (and the positive part of C23): reported costs are the user's objective values *)
Theorem C22_reported_costs : forall (r : raw_obj) k (sol : assignment) (a : asg),
  obj_ok r -> obj_fits r -> extends a sol ->
  (forall v, In v (lits_vars (map fst (fst r))) -> exists b, nth_error sol v = Some (Some b)) ->
  let ob := obj_new (fst r) (snd r) k in
  externalize_one ob (sol_cost ob sol) = Some (snd r + Z.of_nat (wsum a (fst r)))%Z.
Proof. exact reported_costs. Qed.
Print Assumptions C22_reported_costs.
(** The reported cost is exact or reporting panics; for non-constant objectives it panics exactly if
    the sum of the weights or the reported value is not a signed 64-bit number. *)
Theorem C22_range : forall (o : objective) c z,
  externalize_one o c = Some z <->
  (obj_is_constant o = true /\ c = 0 /\ z = obj_offset o) \/
  (obj_is_constant o = false /\ z = (Z.of_nat c * Z.of_nat (obj_unit_weight o) + obj_offset o)%Z /\
     (Z.of_nat c * Z.of_nat (obj_unit_weight o) < 2 ^ 63)%Z /\ (- 2 ^ 63 <= z < 2 ^ 63)%Z).
Proof.
  assert (T : forall z y, to_isize z = Some y <-> y = z /\ (- 2 ^ 63 <= z < 2 ^ 63)%Z).
  { intros z y. unfold to_isize, isize_min, isize_max. destruct (_ && _) eqn:e.
    - apply andb_true_iff in e. destruct e as [e1 e2]. apply Z.leb_le in e1. apply Z.leb_le in e2.
      split; [intros [= <-]; lia|]. intros [-> _]. reflexivity.
    - split; [discriminate|]. intros [_ H]. apply andb_false_iff in e. rewrite !Z.leb_gt in e. lia. }
  assert (G : forall c off z, match to_isize c with Some c => to_isize (c + off) | None => None end = Some z <->
    (0 <= c)%Z /\ (z = c + off /\ c < 2 ^ 63 /\ - 2 ^ 63 <= z < 2 ^ 63)%Z \/ (c < 0)%Z /\
    match to_isize c with Some c => to_isize (c + off) | None => None end = Some z).
  { intros c off z. destruct (Z.ltb_spec c 0) as [Hc|Hc]; [split; [intros H; right; split; auto|intros [[? _]|[_ ?]]; [lia|assumption]]|].
    split; [|intros [[_ (H1 & H2 & H3)]|[? _]]; [|lia]].
    - intros H. left. split; [exact Hc|]. destruct (to_isize c) as [c'|] eqn:e; [|discriminate].
      apply T in e. apply T in H. destruct e as [-> e], H as [-> H]. lia.
    - assert (E : to_isize c = Some c) by (apply T; lia). rewrite E. apply T. lia. }
  intros o c z. destruct o as [off ls ix lb|off uw ls ix lb|off ix lb];
    cbn [externalize_one obj_is_constant obj_unit_weight obj_offset].
  - rewrite G, Z.mul_1_r. intuition lia || discriminate.
  - rewrite G. assert (0 <= Z.of_nat c * Z.of_nat uw)%Z by lia. intuition lia || discriminate.
  - destruct (Nat.eqb_spec c 0) as [->|Hc].
    + split; [intros [= <-]; left; auto|]. intros [(_ & _ & ->)|[? _]]; [reflexivity|discriminate].
    + split; [discriminate|]. intros [(_ & ? & _)|[? _]]; [contradiction|discriminate].
Qed.
Print Assumptions C22_range.
Example C22_range_example :
  (to_isize (2 ^ 63 - 1), to_isize (2 ^ 63), to_isize (- 2 ^ 63), to_isize (- 2 ^ 63 - 1)) =
  (Some (2 ^ 63 - 1), None, Some (- 2 ^ 63), None)%Z.
Proof. vm_compute. reflexivity. Qed.
(** C23: any list of distinct literals, and any list with equal weights (then with
    duplicates), is [obj_ok] unless all weights are zero *)
Theorem C23_distinct_or_unit : forall (ls : list (lit * nat)) off,
  (exists lw, In lw ls /\ snd lw <> 0) ->
  NoDup (map fst ls) \/ (exists w, forall lw, In lw ls -> snd lw = w) -> obj_ok (ls, off).
Proof.
  intros ls off Hz [H|[w H]]; split; cbn; auto. right. intros x y Hx Hy. now rewrite (H x), (H y).
Qed.
Print Assumptions C23_distinct_or_unit.
Example C22_example : map (fun r : raw_obj => let ob := obj_new (fst r) (snd r) 0 in
    externalize_one ob (sol_cost ob [Some true; Some false; Some true; Some true]))
  [ex_o1; ex_o2; ([(pos 0, 3); (neg 1, 3); (pos 0, 3)], (-4)%Z); ([], 7%Z)] =
  [Some 1; Some 1; Some 5; Some 7]%Z.
Proof. vm_compute. reflexivity. Qed.

(** ** C24: the default blocking clause *)
Theorem C24_default_blocking_clause : forall (a : asg) (sol : assignment),
  clause_true a (default_blocking_clause sol) = false <->
  forall v b, nth_error sol v = Some (Some b) -> a v = b.
Proof. exact default_block_iff. Qed.
Print Assumptions C24_default_blocking_clause.
Example C24_example : default_blocking_clause [Some true; None; Some false] = [neg 0; pos 2].
Proof. reflexivity. Qed.

(** ** C25: the Pareto-MCS blocking clause *)
Theorem C25_pmcs_blocking_clause : forall i (sol : assignment), exists c,
  block_pareto_mcs (build_objs 0 (in_objs i)) sol = Some c /\
  (forall a, clause_true a c = false <->
     forall x, raw_lit i x -> lit_value sol x = Some true -> lit_true a x = true) /\
  (forall x, ~ (In x c /\ In (lnot x) c)).
Proof. exact pmcs_clause. Qed.
Print Assumptions C25_pmcs_blocking_clause.
Example C25_example : block_pareto_mcs (build_objs 0 (in_objs ex_inst)) [Some true; Some false; Some true; Some true]
  = Some [neg 0; pos 1; neg 3].
Proof. vm_compute. reflexivity. Qed.

(** ** C36: linear search.  In any state reached by calls of [solve] without enumeration,
    under any base assumptions over the instance's variables, with any valid lower bound and
    any valid starting point. [allowed s] are the assignments that satisfy the clauses in
    the oracle. *)
Theorem C36_linear_search_minimum :
  forall I (SP : enc_spec I) i o al (s0 : st I) h l E idx r base lb ub,
  inst_ok i -> o_enum o = NoEnum -> alg_new al i o = Some s0 -> run_ok h -> lims_pos l -> oracle_ok E ->
  let s := run al h s0 in
  let cost a := wsum a (obj_iter (obj_new (fst r) (snd r) idx)) in
  nth_error (in_objs i) idx = Some r ->
  (forall v, In v (lits_vars base) -> v <= vm_max_enc (in_vm i)) ->
  (forall a, allowed s a -> lits_true a base -> lb <= cost a) ->
  match ub with
  | None => True
  | Some (c, sol) => exists a, allowed s a /\ lits_true a base /\ cost a = c /\
      match sol with None => True | Some x => exists v, vm_max_enc (in_vm i) <= v /\ x = sol_of a v end
  end ->
  match linsu E idx base ub (Some lb) (set_lims l s) with
  | (Done None, s') => (forall a, allowed s a -> ~ lits_true a base) /\ (forall a, allowed s' a <-> allowed s a)
  | (Done (Some (c, sol)), s') =>
      (exists a, allowed s a /\ lits_true a base /\ extends a sol /\ cost a = c) /\
      (forall a, allowed s a -> lits_true a base -> c <= cost a) /\
      (forall a, allowed s' a <-> allowed s a)
  | (Exit x, s') => proper_end (wtotal (obj_iter (obj_new (fst r) (snd r) idx))) E x
  end.
Proof. exact @linear_search. Qed.
Print Assumptions C36_linear_search_minimum.
Definition ex_linsu base : option (res (option nat)) :=
  option_map (fun s : st CI => match fst (linsu ex_env 0 base None (Some 0) s) with
      Done (Some (c, _)) => Done (Some c) | Done None => Done None | Exit x => Exit x end)
    (alg_new ABiOptSat ex_inst (ex_opts NoEnum)).
Example C36_example : ex_linsu [neg 3] = Some (Done (Some 3)) /\ ex_linsu [neg 0; neg 1] = Some (Done None).
Proof. split; vm_compute; reflexivity. Qed.

(** ** C37: the P-minimal cut for the costs of [a0] *)
Theorem C37_cut_exact : forall I (SP : enc_spec I) i o al (s0 : st I) h l a0,
  inst_ok i -> o_enum o = NoEnum -> alg_new al i o = Some s0 -> run_ok h -> lims_pos l ->
  let s := run al h s0 in
  allowed s a0 ->
  let cs := map (fun ob => wsum a0 (obj_iter ob)) (build_objs 0 (in_objs i)) in
  exists s', bind (dominated_block_clause cs) (fun cl => add_clause cl) (set_lims l s) = (Done tt, s') /\
    forall a, allowed s' a <->
      allowed s a /\ ~ weakly_dominates (costs (in_objs i) a0) (costs (in_objs i) a).
Proof. exact @cut_exact. Qed.
Print Assumptions C37_cut_exact.
Example C37_example :
  option_map (fun s : st CI => fst (bind (dominated_block_clause [3; 2]) (fun cl => add_clause cl) s))
    (alg_new APMinimal ex_inst (ex_opts NoEnum)) = Some (Done tt).
Proof. vm_compute. reflexivity. Qed.

(** ** C38: the fence.  [core] is a non-empty set of negated fence assumptions; a refinement
    raises at least one bound, lowers none, and skips no value an allowed assignment takes. *)
Theorem C38_fence_rises : forall I (SP : enc_spec I) i o (s0 : st I) h l E core s2,
  inst_ok i -> o_enum o = NoEnum -> alg_new ALowerBounding i o = Some s0 -> run_ok h -> lims_pos l ->
  let s := run ALowerBounding h s0 in
  fence_init (set_lims l s) = (Done tt, s2) ->
  core <> [] -> (forall x, In x core -> In (lnot x) (fence_assumps (s_fence s2))) ->
  match update_fence E core s2 with
  | (Done _, s3) => let f := fence_bounds (s_fence s2) in let f' := fence_bounds (s_fence s3) in
      length f = length (in_objs i) /\ length f' = length (in_objs i) /\
      (forall j b b', nth_error f j = Some b -> nth_error f' j = Some b' -> b <= b') /\
      (exists j b b', nth_error f j = Some b /\ nth_error f' j = Some b' /\ b < b') /\
      (forall j b b' r a, nth_error f j = Some b -> nth_error f' j = Some b' ->
         nth_error (in_objs i) j = Some r -> allowed s a ->
         let cost := wsum a (obj_iter (obj_new (fst r) (snd r) j)) in cost <= b \/ b' <= cost)
  | (Exit x, _) => x = EErr ErrLogger \/ x = EErr ErrOracle \/ exists t, x = ETerm t
  end.
Proof. exact @fence_rises. Qed.
Print Assumptions C38_fence_rises.
Definition ex_fence : option (list nat * res unit * list nat) :=
  match alg_new (I := CI) ALowerBounding ex_inst (ex_opts NoEnum) with
  | Some s => match fence_init (set_lims lims_none s) with
      | (Done _, s2) => let r := update_fence ex_env (map lnot (firstn 1 (fence_assumps (s_fence s2)))) s2 in
          Some (fence_bounds (s_fence s2), fst r, fence_bounds (s_fence (snd r)))
      | _ => None end
  | None => None end.
Example C38_example : ex_fence = Some ([0; 0], Done tt, [1; 0]).
Proof. vm_compute. reflexivity. Qed.
