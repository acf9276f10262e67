(** * Properties of the proof logging code *)
From Coq Require Import List Arith ZArith Lia Bool.
From Verif Require Import Base BaseLemmas Spec MTypes MKernel MPMinimal MPrepro EncSpec Sem Kern Init ApiSpec Ext VeriPB VeriThm MProofs ProofThm ProofRun ProofCut ProofCert ProofFin.
Import ListNotations.

(** ** C47: the order written at the start of the proof *)
(** the checker accepts the order definition, it is reflexive and transitive, and it relates two
    assignments exactly if the first one is at least as good in all objectives of the user *)
Theorem C47_order_is_weak_dominance : forall rs,
  Forall obj_ok rs ->
  order_ok (objectives_as_order (build_objs 0 rs)) /\
  (forall a b, ord_holds (map fst (objectives_as_order (build_objs 0 rs))) a b <->
     weakly_dominates (costs rs a) (costs rs b)) /\
  (forall a, ord_holds (map fst (objectives_as_order (build_objs 0 rs))) a a) /\
  (forall a b c, ord_holds (map fst (objectives_as_order (build_objs 0 rs))) a b ->
     ord_holds (map fst (objectives_as_order (build_objs 0 rs))) b c ->
     ord_holds (map fst (objectives_as_order (build_objs 0 rs))) a c).
Proof.
  intros rs Hok. assert (O : order_ok (objectives_as_order (build_objs 0 rs))) by apply order_accepted.
  split; [exact O|]. split.
  - intros a b. rewrite order_fst. apply order_meaning. exact Hok.
  - split.
    + intros a. apply order_refl; [exact O|]. intros c p. apply order_no_w.
    + intros a b c. apply order_transitive; [exact O|]. intros d p. apply order_no_w.
Qed.
Print Assumptions C47_order_is_weak_dominance.

(** ** C48: reified objective bounds *)
(** the literal is equivalent to the objective reaching the value, on all assignments that satisfy the
    two definitions; every assignment of the solver variables extends to such an assignment *)
Theorem C48_bound_literal : forall (a : pv -> bool) o v r,
  (lb_holds a (bound_def_1 o v r) /\ lb_holds a (bound_def_2 o v r)) <->
  a r = (v <=? icost o (on_solver a)).
Proof.
  intros a o v r. rewrite bound_def_1_holds, bound_def_2_holds. destruct (Nat.leb_spec v (icost o (on_solver a))) as [L|L].
  - split; [|intros E; split; intros X; [congruence|exact L]].
    intros (X & _). destruct (a r); [reflexivity|]. specialize (X eq_refl). lia.
  - split; [|intros E; split; intros X; [exact L|congruence]].
    intros (_ & X). destruct (a r); [|reflexivity]. specialize (X eq_refl). lia.
Qed.
Print Assumptions C48_bound_literal.
(** all lines that are written are accepted, the definitions are constraints of the proof under the
    returned ids, nothing that was in the proof is lost *)
Theorem C48_bound_definitions_accepted : forall k0 objs o v p l d1 d2 p',
  (forall a, ord_holds (k_order (kof k0 p)) a a) ->
  (forall o1 o2, In o1 objs -> In o2 objs -> obj_idx o1 = obj_idx o2 -> o1 = o2) -> In o objs ->
  wok k0 p -> bounds_ok k0 objs p ->
  get_obj_bound v o p = ((l, d1, d2), p') ->
  steps_valid k0 (ps_log p') /\ wok k0 p' /\ bounds_ok k0 objs p' /\
  (exists n, l = mkAx (PVp n) false /\
    In (d1, bound_def_1 o v (PVp n)) (k_all (kof k0 p')) /\
    In (d2, bound_def_2 o v (PVp n)) (k_all (kof k0 p'))) /\
  (forall e, In e (k_all (kof k0 p)) -> In e (k_all (kof k0 p'))).
Proof.
  intros k0 objs o v p l d1 d2 p' H1 H2 H3 H4 H5 E.
  destruct (get_obj_bound_ok k0 objs o v p l d1 d2 p' H1 H2 H3 H4 H5 E) as (W & B & D & _ & G & _).
  split; [exact (wk_valid _ _ W)|]. tauto.
Qed.
Print Assumptions C48_bound_definitions_accepted.
(** asking again for the same bound gives the same literal and writes nothing *)
Theorem C48_bound_reused : forall o v p x p',
  get_obj_bound v o p = (x, p') -> get_obj_bound v o p' = (x, p').
Proof.
  intros o v p x p' E. unfold get_obj_bound in E. destruct (bound_get (ps_bounds p) (obj_idx o, v)) as [y|] eqn:G.
  - injection E as <- <-. unfold get_obj_bound. rewrite G. reflexivity.
  - cbn [new_proof_var push_value wr_id add_bound] in E. injection E as <- <-. unfold get_obj_bound.
    cbn [ps_bounds add_bound bound_get]. destruct (key_eqb_spec (obj_idx o, v) (obj_idx o, v)) as [_|N]; [reflexivity|].
    exfalso. apply N. reflexivity.
Qed.
Print Assumptions C48_bound_reused.

(** ** C49: the cut excluding what a solution weakly dominates *)
(** the line that maps everything the cut excludes to the solution, together with the exclusion of the
    solution, is the cut *)
Theorem C49_cut_is_mapping_and_exclusion : forall (a : pv -> bool) fw cut,
  lb_holds a (map_dom_constr fw cut) -> lb_holds a (lb_clause (map ax_not fw)) -> lb_holds a (lb_clause cut).
Proof.
  intros a fw cut H1 H2. apply map_dom_holds in H1. apply lb_clause_holds in H2. apply lb_clause_holds.
  destruct H1 as [H1|H1]; [|exact H1]. exfalso. destruct H2 as (l & Hl & Ht). apply in_map_iff in Hl.
  destruct Hl as (x & <- & Hx). specialize (H1 x Hx). rewrite ax_not_true in Ht. rewrite H1 in Ht. discriminate.
Qed.
Print Assumptions C49_cut_is_mapping_and_exclusion.
Theorem C49_cut_accepted : forall k0 cs witness max_enc p fw id p',
  k_order (kof k0 p) = map obj_order (map co_obj cs) ->
  (forall i c, nth_error cs i = Some c -> obj_idx (co_obj c) = i) ->
  wok k0 p -> bounds_ok k0 (map co_obj cs) p -> vmap_ok p ->
  Forall (cobj_ok (k_all (kof k0 p))) cs ->
  (forall c, In c cs -> co_cost c <= obj_lb (co_obj c) -> co_reform c <> None -> obj_unit_weight (co_obj c) = 1) ->
  fix_witness (map co_enc cs) (map co_cost cs) (ps_vmap p) witness = Some fw ->
  (exists a0, ax_all a0 fw) ->
  (forall a, ax_all a fw -> db_holds a (k_all (kof k0 p)) /\
     forall c, In c cs -> icost (co_obj c) (on_solver a) = co_cost c) ->
  Forall (outs_ok fw) cs ->
  up_to (map snd (k_all (kof k0 p))) (map axiom (sol_lits (truncate witness max_enc))) fw ->
  certify_pmin_cut cs witness max_enc p = Some (id, p') ->
  steps_valid k0 (ps_log p') /\
  wok k0 p' /\ bounds_ok k0 (map co_obj cs) p' /\ vmap_ok p' /\
  k_order (kof k0 p') = k_order (kof k0 p) /\
  k_excl (kof k0 p') = map axiom (sol_lits (truncate witness max_enc)) :: k_excl (kof k0 p) /\
  (forall e, In e (k_all (kof k0 p)) -> In e (k_all (kof k0 p'))) /\
  exists cut, In (id, lb_clause cut) (k_core (kof k0 p')) /\
    (forall a, ax_all a fw -> exists b, (forall v, on_solver b v = on_solver a v) /\ ax_all b fw /\ ~ lb_holds b (lb_clause cut)) /\
    (forall a, (forall e, In e (k_all (kof k0 p')) -> fst e <> id -> lb_holds a (snd e)) ->
       (exists c, In c cs /\ icost (co_obj c) (on_solver a) < co_cost c) -> lb_holds a (lb_clause cut)).
Proof.
  intros k0 cs witness max_enc p fw id p' H1 H2 H3 H4 H5 H6 H7 H8 H9 H10 H11 H12 H13.
  pose proof (certify_cut_ok k0 cs witness max_enc p fw id p' H1 H2 H3 H4 H5 H6 H7 H8 H9 H10 H11 H12 H13) as X.
  split; [exact (wk_valid _ _ (proj1 X))|exact X].
Qed.
Print Assumptions C49_cut_accepted.

(** ** C63: an accepted, concluded proof certifies the front *)
Theorem C63_accepted_proof_covers : forall rs cls ss,
  Forall obj_ok rs ->
  let k := init_chk cls (build_objs 0 rs) in
  steps_valid k ss ->
  (exists e, In e (k_all (steps_next k ss)) /\ contradictory (snd e)) ->
  (forall ls, In ls (k_excl (steps_next k ss)) -> fixes_objs rs ls) ->
  forall a, sat a cls ->
  exists ls s, In ls (k_excl (steps_next k ss)) /\ agrees_with s ls /\ sat s cls /\
    weakly_dominates (costs rs s) (costs rs a).
Proof. exact accepted_front. Qed.
Print Assumptions C63_accepted_proof_covers.
Theorem C63_accepted_proof_complete : forall rs cls ss c,
  Forall obj_ok rs ->
  let k := init_chk cls (build_objs 0 rs) in
  steps_valid k ss ->
  (exists e, In e (k_all (steps_next k ss)) /\ contradictory (snd e)) ->
  (forall ls, In ls (k_excl (steps_next k ss)) -> fixes_objs rs ls) ->
  pareto_optimal cls rs c ->
  exists ls, In ls (k_excl (steps_next k ss)) /\ forall s, agrees_with s ls -> costs rs s = c.
Proof. exact accepted_front_complete. Qed.
Print Assumptions C63_accepted_proof_complete.

(** ** A complete proof: minimise 2*x0 + x2 and x1 subject to x0 or x1; two cuts and the conclusion *)
Definition ex_rs : list raw_obj := [([(pos 0, 2); (pos 2, 1)], 0%Z); ([(pos 1, 1)], 0%Z)].
Definition ex_cls : list clause := [[pos 0; pos 1]].
Definition ex_objs := build_objs 0 ex_rs.
Definition ex_enc : penc := mkPenc 0 3 false (fun _ => None) (fun _ => None) (fun v => S v) (fun _ => []).
Definition ex_o1 : objective := OWeighted 0 [(pos 0, 2); (pos 2, 1)] 0 0.
Definition ex_o2 : objective := OUnweighted 0 1 [pos 1] 1 0.
Definition ex_cs (c1 c2 : nat) : list cobj := [mkCobj ex_enc ex_o1 None c1; mkCobj ex_enc ex_o2 None c2].
Definition ex_k := init_chk ex_cls ex_objs.
Definition ex_p0 := mkPst (S (length ex_cls)) 0 [] [] [] [].
Definition ex_w1 : assignment := [Some true; Some false; Some false].
Definition ex_w2 : assignment := [Some false; Some true; Some false].
Definition ex_p1 := match certify_pmin_cut (ex_cs 2 0) ex_w1 2 ex_p0 with Some (_, p) => p | None => ex_p0 end.
Definition ex_p2 := match certify_pmin_cut (ex_cs 0 1) ex_w2 2 ex_p1 with Some (_, p) => p | None => ex_p0 end.
(** the oracle then reports that no solution is left; the conclusion follows from the input
    clause, the two cuts and the definition of the bound *)
Definition ex_end := wr (SRup (lb_clause []) [CAbs 1; CAbs 6; CAbs 9; CAbs 2]) ex_p2.

Example ex_built : ex_objs = [ex_o1; ex_o2]. Proof. reflexivity. Qed.
Lemma ex_encs : forall es c1 c2, Forall (cobj_ok es) (ex_cs c1 c2).
Proof.
  intros es c1 c2. repeat constructor.
  - exists (obj_terms ex_o1). constructor; try (cbn; intros; discriminate).
    + split; reflexivity.
    + intros t Ht. apply in_map_iff in Ht. destruct Ht as (lw & <- & _). cbn [fst]. lia.
    + reflexivity.
  - exists (obj_terms ex_o2). constructor; try (cbn; intros; discriminate).
    + split; reflexivity.
    + intros t Ht. apply in_map_iff in Ht. destruct Ht as (lw & <- & _). cbn [fst]. lia.
    + reflexivity.
Qed.
Lemma ex_idx : forall c1 c2 i c, nth_error (ex_cs c1 c2) i = Some c -> obj_idx (co_obj c) = i.
Proof.
  intros c1 c2 [|[|i]] c E; cbn in E; [injection E as <-; reflexivity|injection E as <-; reflexivity|destruct i; discriminate].
Qed.
Lemma ex_outs : forall fw c1 c2, Forall (outs_ok fw) (ex_cs c1 c2).
Proof. intros fw c1 c2. repeat constructor; cbn in *; discriminate. Qed.
Lemma pv_true : forall (a : pv -> bool) v s, ax_true a (mkAx v s) = true -> a v = negb s.
Proof. intros a v s. unfold ax_true. cbn [ax_neg ax_var]. destruct s, (a v); cbn; congruence. Qed.
Lemma ex_first : exists id, certify_pmin_cut (ex_cs 2 0) ex_w1 2 ex_p0 = Some (id, ex_p1).
Proof. exists 6. vm_compute. reflexivity. Qed.
Lemma ex_second : exists id, certify_pmin_cut (ex_cs 0 1) ex_w2 2 ex_p1 = Some (id, ex_p2).
Proof. exists 9. vm_compute. reflexivity. Qed.
Lemma ex_p1_ok : wok ex_k ex_p1 /\ bounds_ok ex_k (map co_obj (ex_cs 0 1)) ex_p1 /\ vmap_ok ex_p1 /\
  k_order (kof ex_k ex_p1) = map obj_order ex_objs.
Proof.
  destruct ex_first as (id & E).
  set (fw := map axiom [pos 0; neg 1; neg 2]).
  pose proof (certify_cut_ok ex_k (ex_cs 2 0) ex_w1 2 ex_p0 fw id ex_p1) as X.
  assert (G : wok ex_k ex_p1 /\ bounds_ok ex_k (map co_obj (ex_cs 2 0)) ex_p1 /\ vmap_ok ex_p1 /\
     k_order (kof ex_k ex_p1) = k_order (kof ex_k ex_p0)).
  { destruct X as (W & B & V & O & _); [| | | | | | | | | | | |exact E|tauto].
    - reflexivity.
    - apply ex_idx.
    - apply init_wok.
    - intros i v l d1 d2 H. discriminate.
    - intros x n [].
    - apply ex_encs.
    - intros c [<-|[<-|[]]]; cbn; congruence.
    - reflexivity.
    - exists (fun x => match x with PVs 0 => true | _ => false end).
      intros l [<-|[<-|[<-|[]]]]; reflexivity.
    - intros a Ha. assert (A0 : a (PVs 0) = true) by (apply (pv_true a _ false); apply Ha; left; reflexivity).
      assert (A1 : a (PVs 1) = false) by (apply (pv_true a _ true); apply Ha; right; left; reflexivity).
      assert (A2 : a (PVs 2) = false) by (apply (pv_true a _ true); apply Ha; right; right; left; reflexivity).
      split.
      + intros e [<-|[]]. unfold lb_holds. cbn. unfold ax_true. cbn. rewrite A0, A1. cbn. lia.
      + intros c [<-|[<-|[]]]; cbn; unfold lit_true; cbn; unfold on_solver; rewrite ?A0, ?A1, ?A2; reflexivity.
    - apply ex_outs.
    - apply upt_done. intros l. reflexivity. }
  destruct G as (W & B & V & O). split; [exact W|]. split; [exact B|]. split; [exact V|]. rewrite O. reflexivity.
Qed.
Lemma ex_p2_ok : wok ex_k ex_p2.
Proof.
  destruct ex_second as (id & E). destruct ex_p1_ok as (W1 & B1 & V1 & O1).
  set (fw := map axiom [neg 0; pos 1; neg 2] ++ [mkAx (PVp 0) true]).
  pose proof (certify_cut_ok ex_k (ex_cs 0 1) ex_w2 2 ex_p1 fw id ex_p2) as X.
  destruct X as (W & _); [exact O1|apply ex_idx|exact W1|exact B1|exact V1|apply ex_encs| | | | |apply ex_outs| |exact E|exact W].
  - intros c [<-|[<-|[]]]; cbn; congruence.
  - vm_compute. reflexivity.
  - exists (fun x => match x with PVs 1 => true | _ => false end).
    intros l [<-|[<-|[<-|[<-|[]]]]]; reflexivity.
  - intros a Ha. assert (A0 : a (PVs 0) = false) by (apply (pv_true a _ true); apply Ha; left; reflexivity).
    assert (A1 : a (PVs 1) = true) by (apply (pv_true a _ false); apply Ha; right; left; reflexivity).
    assert (A2 : a (PVs 2) = false) by (apply (pv_true a _ true); apply Ha; right; right; left; reflexivity).
    assert (A3 : a (PVp 0) = false) by (apply (pv_true a _ true); apply Ha; right; right; right; left; reflexivity).
    split.
    + intros e He. vm_compute in He. destruct He as [<-|[<-|[<-|[<-|[]]]]];
        unfold lb_holds; cbn; unfold ax_true; cbn; rewrite ?A0, ?A1, ?A2, ?A3; cbn; lia.
    + intros c [<-|[<-|[]]]; cbn; unfold lit_true; cbn; unfold on_solver; rewrite ?A0, ?A1, ?A2; reflexivity.
  - apply (upt_step _ _ _ (bound_def_2 ex_o1 2 (PVp 0)) (mkAx (PVp 0) true)).
    + vm_compute. right. right. left. reflexivity.
    + intros a Ha Hd. rewrite bound_def_2_holds in Hd.
      assert (A0 : a (PVs 0) = false) by (apply (pv_true a _ true); apply Ha; left; reflexivity).
      assert (A2 : a (PVs 2) = false) by (apply (pv_true a _ true); apply Ha; right; right; left; reflexivity).
      unfold ax_true. cbn [ax_neg ax_var]. destruct (a (PVp 0)); [|reflexivity]. exfalso. specialize (Hd eq_refl).
      cbn in Hd. unfold lit_true in Hd. cbn in Hd. unfold on_solver in Hd. rewrite A0, A2 in Hd. cbn in Hd. lia.
    + apply upt_done. intros l. vm_compute. tauto.
Qed.

Lemma ex_end_ok : steps_valid ex_k (ps_log ex_end).
Proof.
  unfold ex_end, wr. cbn [ps_log]. apply steps_valid_app. split; [exact (wk_valid _ _ ex_p2_ok)|].
  split; [|exact Logic.I]. change (steps_next ex_k (ps_log ex_p2)) with (kof ex_k ex_p2).
  exists [clause_pb [pos 0; pos 1]; lb_clause [mkAx (PVp 0) true]; lb_clause [axiom (neg 1)]; bound_def_1 ex_o1 2 (PVp 0)].
  split; [vm_compute; reflexivity|]. unfold rup.
  apply (up_step _ _ (lb_clause [axiom (neg 1)]) (axiom (neg 1))); [cbn; tauto| |].
  { intros a _ H. apply lb_clause_holds in H. destruct H as (l & [<-|[]] & H). exact H. }
  apply (up_step _ _ (clause_pb [pos 0; pos 1]) (axiom (pos 0))); [cbn; tauto| |].
  { intros a H1 H. apply lb_clause_holds in H. destruct H as (l & [<-|[<-|[]]] & H); [exact H|].
    specialize (H1 _ (or_introl eq_refl)). cbn in *. unfold ax_true in *. cbn in *. destruct (a (PVs 1)); discriminate. }
  apply (up_step _ _ (lb_clause [mkAx (PVp 0) true]) (mkAx (PVp 0) true)); [cbn; tauto| |].
  { intros a _ H. apply lb_clause_holds in H. destruct H as (l & [<-|[]] & H). exact H. }
  apply (up_conflict _ _ (bound_def_1 ex_o1 2 (PVp 0))); [cbn; tauto|].
  intros a Ha H. rewrite bound_def_1_holds in H.
  assert (A0 : a (PVs 0) = true) by (apply (pv_true a _ false); apply Ha; right; left; reflexivity).
  assert (A3 : a (PVp 0) = false) by (apply (pv_true a _ true); apply Ha; left; reflexivity).
  specialize (H A3). cbn in H. unfold lit_true in H. cbn in H. unfold on_solver in H. rewrite A0 in H. cbn in H. lia.
Qed.
(** the written proof satisfies all hypotheses of C63; it certifies the front {(2,0), (0,1)} *)
Example C63_example : forall c, pareto_optimal ex_cls ex_rs c -> c = [2%Z; 0%Z] \/ c = [0%Z; 1%Z].
Proof.
  intros c Hc.
  assert (Ex : k_excl (steps_next ex_k (ps_log ex_end)) =
     [map axiom [neg 0; pos 1; neg 2]; map axiom [pos 0; neg 1; neg 2]]) by (vm_compute; reflexivity).
  destruct (C63_accepted_proof_complete ex_rs ex_cls (ps_log ex_end) c) as (ls & Hls & Hs).
  - constructor; [|constructor; [|constructor]]; (split;
      [left; cbn; repeat constructor; cbn; intuition discriminate|right; eexists; split; [left; reflexivity|discriminate]]).
  - exact ex_end_ok.
  - exists (10, lb_clause []). split; [vm_compute; tauto|]. intros a _ H. apply lb_clause_holds in H. destruct H as (l & [] & _).
  - intros ls Hls. change (init_chk ex_cls (build_objs 0 ex_rs)) with ex_k in Hls. rewrite Ex in Hls.
    apply decides_fixes. intros r l w Hr Hl.
    destruct Hls as [<-|[<-|[]]]; destruct Hr as [<-|[<-|[]]]; cbn [fst] in Hl; cbn [In] in Hl;
      repeat (destruct Hl as [Hl|Hl]; [injection Hl as <- <-; eexists; cbn; tauto|]); destruct Hl.
  - exact Hc.
  - change (init_chk ex_cls (build_objs 0 ex_rs)) with ex_k in Hls. rewrite Ex in Hls. destruct Hls as [<-|[<-|[]]].
    + right. rewrite <- (Hs (fun v => Nat.eqb v 1)); [reflexivity|].
      intros v s [E|[E|[E|[]]]]; injection E as <- <-; reflexivity.
    + left. rewrite <- (Hs (fun v => Nat.eqb v 0)); [reflexivity|].
      intros v s [E|[E|[E|[]]]]; injection E as <- <-; reflexivity.
Qed.

(** ** C64: the cut for a solution at the lower bound found by core boosting *)
(** minimise 2*x0 + 2*x1 subject to x0 or x1 (unit weight 2): core boosting has found the core
    {x0, x1}, built a totalizer with output x2 for both being true, derived the reformulation
    x0 + x1 >= x2 + 1 and raised the lower bound to 1 (in units of 2) *)
Definition uw_rs : list raw_obj := [([(pos 0, 2); (pos 1, 2)], 0%Z)].
Definition uw_cls : list clause := [[pos 0; pos 1]].
Definition uw_k := init_chk uw_cls (build_objs 0 uw_rs).
Definition uw_if : pconstr := mkLb [(1%Z, axiom (neg 0)); (1%Z, axiom (neg 1)); (1%Z, axiom (pos 2))] 1.
Definition uw_only_if : pconstr := mkLb [(1%Z, axiom (pos 0)); (1%Z, axiom (pos 1)); (2%Z, axiom (neg 2))] 2.
Definition uw_log : list step :=
  [SRed uw_if [(PVs 2, true)] []; SRed uw_only_if [(PVs 2, false)] [];
   SPol (reform_init 1 3); SPol (PMul (PC (CAbs 4)) 1)].
Definition uw_p := mkPst 6 0 uw_log [] [] [].
(** the objective after core boosting, its encoding is the single output *)
Definition uw_o : objective := OUnweighted 0 2 [pos 0; pos 1] 0 1.
Definition uw_enc : penc :=
  mkPenc 1 1 true (fun b => if b =? 1 then Some [neg 2] else Some []) (fun _ => None) (fun v => S v)
    (fun a => match lit_value a (pos 0), lit_value a (pos 1) with
              | Some true, Some true => [pos 2] | _, _ => [neg 2] end).
Definition uw_cs : list cobj := [mkCobj uw_enc uw_o (Some 5) 1].
Definition uw_w : assignment := [Some true; Some false; Some false].
Definition uw_fw : list (ax pv) := map axiom [pos 0; neg 1; neg 2].

Example uw_built : build_objs 0 uw_rs = [OUnweighted 0 2 [pos 0; pos 1] 0 0]. Proof. reflexivity. Qed.
Lemma uw_refl : forall a, ord_holds (k_order uw_k) a a.
Proof.
  intros a. unfold uw_k, init_chk. cbn [k_order]. rewrite order_fst. apply ord_holds_objs. apply Forall_forall.
  intros o _. lia.
Qed.
Lemma uw_free : ord_free (k_order uw_k) (PVs 2).
Proof.
  intros o t x Ho Ht E F. injection F as <-. destruct Ho as [<-|[]].
  vm_compute in Ht. repeat (destruct Ht as [<-|Ht]; [discriminate E|]). destruct Ht.
Qed.
Lemma uw_if_holds : forall a : pv -> bool, lb_holds a uw_if <-> (a (PVs 0) && a (PVs 1) = true -> a (PVs 2) = true).
Proof.
  intros a. unfold lb_holds, uw_if. cbn. unfold ax_true. cbn.
  destruct (a (PVs 0)), (a (PVs 1)), (a (PVs 2)); cbn; split; intros; try lia; try reflexivity; try discriminate; exfalso;
    match goal with H : _ |- _ => specialize (H eq_refl); discriminate end.
Qed.
Lemma uw_only_if_holds : forall a : pv -> bool, lb_holds a uw_only_if <-> (a (PVs 2) = true -> a (PVs 0) && a (PVs 1) = true).
Proof.
  intros a. unfold lb_holds, uw_only_if. cbn. unfold ax_true. cbn.
  destruct (a (PVs 0)), (a (PVs 1)), (a (PVs 2)); cbn; split; intros; try lia; try reflexivity; try discriminate; exfalso;
    match goal with H : _ |- _ => specialize (H eq_refl); discriminate end.
Qed.
Lemma uw_valid : steps_valid uw_k uw_log.
Proof.
  split; [|split; [|split; [|split; [|exact Logic.I]]]].
  - apply red_free; [exact uw_refl|exact uw_free| |].
    + intros a Ha. apply uw_if_holds. intros _. exact Ha.
    + intros e [<-|[]]. left. cbn. intuition discriminate.
  - apply red_free; [exact uw_refl|exact uw_free| |].
    + intros a Ha. apply uw_only_if_holds. congruence.
    + intros e [<-|[<-|[]]].
      * left. cbn. intuition discriminate.
      * right. intros a Hn. cbn [snd]. apply uw_if_holds. rewrite !su_one. cbn [pv_eqd]. intros Hab.
        exfalso. apply Hn. apply uw_only_if_holds. intros _. exact Hab.
  - vm_compute. discriminate.
  - vm_compute. discriminate.
Qed.
Lemma uw_wok : wok uw_k uw_p.
Proof.
  constructor.
  - split.
    + intros i c c' H1 H2. vm_compute in H1, H2.
      repeat (destruct H1 as [H1|H1]; [injection H1 as <- <-; repeat (destruct H2 as [H2|H2]; [try discriminate H2; injection H2 as <-; reflexivity|]); destruct H2|]).
      destruct H1.
    + intros e He. vm_compute in He. repeat (destruct He as [<-|He]; [vm_compute; lia|]). destruct He.
  - exact uw_valid.
  - reflexivity.
  - intros e n He. vm_compute in He. repeat (destruct He as [<-|He]; [cbn; intuition discriminate|]). destruct He.
Qed.
Lemma uw_extended : forall a : pv -> bool, ax_all a uw_fw -> a (PVs 0) = true /\ a (PVs 1) = false /\ a (PVs 2) = false.
Proof.
  intros a Ha. split; [|split]; [apply (pv_true a _ false)|apply (pv_true a _ true)|apply (pv_true a _ true)]; apply Ha; cbn; tauto.
Qed.
(** everything C49 asks for except the unit weight being one; the written lines are not accepted *)
Theorem C64_cut_at_lower_bound_refuted : exists k0 cs witness max_enc p fw id p',
  k_order (kof k0 p) = map obj_order (map co_obj cs) /\
  (forall i c, nth_error cs i = Some c -> obj_idx (co_obj c) = i) /\
  wok k0 p /\ bounds_ok k0 (map co_obj cs) p /\ vmap_ok p /\
  Forall (cobj_ok (k_all (kof k0 p))) cs /\
  fix_witness (map co_enc cs) (map co_cost cs) (ps_vmap p) witness = Some fw /\
  (exists a0, ax_all a0 fw) /\
  (forall a, ax_all a fw -> db_holds a (k_all (kof k0 p)) /\
     forall c, In c cs -> icost (co_obj c) (on_solver a) = co_cost c) /\
  Forall (outs_ok fw) cs /\
  up_to (map snd (k_all (kof k0 p))) (map axiom (sol_lits (truncate witness max_enc))) fw /\
  certify_pmin_cut cs witness max_enc p = Some (id, p') /\
  ~ steps_valid k0 (ps_log p').
Proof.
  destruct (certify_pmin_cut uw_cs uw_w 2 uw_p) as [[id p']|] eqn:E; [|vm_compute in E; discriminate].
  exists uw_k, uw_cs, uw_w, 2, uw_p, uw_fw, id, p'.
  split; [reflexivity|]. split.
  { intros [|i] c Hc; [injection Hc as <-; reflexivity|destruct i; discriminate]. }
  split; [exact uw_wok|]. split; [intros i v l d1 d2 H; discriminate|]. split; [intros x n []|].
  split.
  { constructor; [|constructor]. exists [(1%Z, axiom (pos 2))]. constructor.
    - eexists. split; [vm_compute; right; left; reflexivity|]. intros a. cbn. unfold lb_val, lit_true, ax_true. cbn.
      unfold on_solver. destruct (a (PVs 0)), (a (PVs 1)), (a (PVs 2)); reflexivity.
    - intros t [<-|[]]. cbn. lia.
    - discriminate.
    - discriminate.
    - intros _ _ l ls El. injection El as <- <-. eexists 5, _, 1%Z. split; [vm_compute; right; left; reflexivity|]. split; [|reflexivity].
      intros a. cbn. unfold lb_val, lit_true, ax_true. cbn.
      unfold on_solver. destruct (a (PVs 0)), (a (PVs 1)), (a (PVs 2)); reflexivity. }
  split; [reflexivity|]. split.
  { exists (fun x => match x with PVs 0 => true | _ => false end). intros l [<-|[<-|[<-|[]]]]; reflexivity. }
  split.
  { intros a Ha. destruct (uw_extended a Ha) as (A0 & A1 & A2). split.
    - intros e He. vm_compute in He. repeat (destruct He as [<-|He];
        [unfold lb_holds; cbn; unfold ax_true; cbn; rewrite ?A0, ?A1, ?A2; cbn; lia|]). destruct He.
    - intros c [<-|[]]. cbn. unfold lit_true, on_solver. cbn. rewrite A0, A1. reflexivity. }
  split.
  { constructor; [|constructor]. intros H. cbn in H. lia. }
  split; [apply upt_done; intros l; reflexivity|]. split; [exact E|].
  assert (Ep : ps_log p' = uw_log ++ skipn 4 (ps_log p') /\ exists r,
     skipn 4 (ps_log p') = SRed (map_dom_constr uw_fw []) (map ax_subst uw_fw) [(2, [DPol (PAdd (PC (CAbs 5)) (PC (CLast 1)))])] :: r).
  { vm_compute in E. injection E as <- <-. split; [reflexivity|]. eexists. reflexivity. }
  destruct Ep as (E1 & r & E2). rewrite E1, E2. clear E E1 E2.
  intros X. apply steps_valid_app in X. destruct X as (_ & ((_ & X & _) & _)).
  specialize (X 0 _ eq_refl). cbn [g_get Nat.eqb Nat.add] in X. unfold goal_ok in X. cbn [sub_ok] in X.
  destruct X as (c & Hc & c' & Hc' & Hx). vm_compute in Hc. injection Hc as <-. cbn [id_get e_get Nat.leb Nat.sub] in Hc'.
  vm_compute in Hc'. injection Hc' as <-. apply (Hx (fun _ => false)).
  - intros l [].
  - unfold lb_holds. cbn. lia.
Qed.
Print Assumptions C64_cut_at_lower_bound_refuted.
