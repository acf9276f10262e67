(** * Blocking clauses *)
From Coq Require Import List Bool Arith Lia ZArith.
From Verif Require Import Base BaseLemmas Spec MTypes MKernel EncSpec Sem Kern Init ApiSpec Ext.
Import ListNotations.

Lemma sol_lits_from_in l : forall sol i, In l (sol_lits_from i sol) <->
  exists j b, nth_error sol j = Some (Some b) /\ l = mkLit (i + j) (negb b).
Proof.
  induction sol as [|[b|] sol IH]; intros i; cbn [sol_lits_from].
  - split; [intros []|]. intros ([|j] & b & H & _); discriminate.
  - cbn [In]. rewrite IH. split.
    + intros [<-|(j & b' & H1 & ->)].
      * exists 0, b. rewrite Nat.add_0_r. auto.
      * exists (S j), b'. split; [exact H1|]. f_equal. lia.
    + intros ([|j] & b' & H1 & ->).
      * left. cbn in H1. injection H1 as <-. now rewrite Nat.add_0_r.
      * right. exists j, b'. split; [exact H1|]. f_equal. lia.
  - rewrite IH. split.
    + intros (j & b' & H1 & ->). exists (S j), b'. split; [exact H1|]. f_equal. lia.
    + intros ([|j] & b' & H1 & ->); [discriminate|]. exists j, b'. split; [exact H1|]. f_equal. lia.
Qed.

(** The default blocking clause excludes exactly the assignments extending the solution *)
Lemma default_block_iff a sol :
  clause_true a (default_blocking_clause sol) = false <-> extends a sol.
Proof.
  unfold default_blocking_clause, sol_lits, extends. rewrite clause_false_iff. split.
  - intros H v b Hv. specialize (H (lnot (mkLit v (negb b)))).
    rewrite lit_true_lnot in H. unfold lit_true in H. cbn [lneg lvar] in H.
    assert (G : negb (xorb (negb b) (a v)) = false).
    { apply H. apply in_map, sol_lits_from_in. exists v, b. auto. }
    destruct b, (a v); cbn in G; congruence.
  - intros H l Hl. apply in_map_iff in Hl. destruct Hl as (l' & <- & Hl').
    apply sol_lits_from_in in Hl'. destruct Hl' as (j & b & H1 & ->). cbn [Nat.add].
    rewrite lit_true_lnot. unfold lit_true. cbn [lneg lvar]. rewrite (H _ _ H1). now destruct b.
Qed.
Lemma default_block_vars sol v : In v (lits_vars (default_blocking_clause sol)) -> v < length sol.
Proof.
  unfold default_blocking_clause, sol_lits. rewrite in_lits_vars. intros (l & Hl & <-).
  apply in_map_iff in Hl. destruct Hl as (l' & <- & Hl'). rewrite lvar_lnot.
  apply sol_lits_from_in in Hl'. destruct Hl' as (j & b & H1 & ->). cbn.
  apply nth_error_Some. congruence.
Qed.

Lemma lit_mem_in l c : lit_mem l c = true <-> In l c.
Proof.
  unfold lit_mem. rewrite existsb_exists. split.
  - intros (x & H1 & H2). apply lit_eqb_eq in H2. now subst.
  - intros H. exists l. split; [exact H|]. apply lit_eqb_refl.
Qed.
Lemma clause_dedup_in l c : In l (clause_dedup c) <-> In l c.
Proof.
  induction c as [|x c IH]; cbn [clause_dedup]; [tauto|]. destruct (lit_mem x c) eqn:e.
  - apply lit_mem_in in e. rewrite IH. cbn. intuition congruence.
  - cbn. now rewrite IH.
Qed.

(** Literals of the objectives *)
Definition obj_lit (os : list objective) (l : lit) : Prop :=
  exists o, In o os /\ In l (map fst (obj_iter o)).

(** The clause blocking a Pareto-MCS excludes exactly the assignments whose true objective
    literals include those of the solution; building it never fails. *)
Lemma pmcs_block os sol : exists c, block_pareto_mcs os sol = Some c /\
  (forall l, In l c <-> exists l', l = lnot l' /\ obj_lit os l' /\ lit_value sol l' = Some true).
Proof.
  unfold block_pareto_mcs, clause_normalize.
  set (c0 := flat_map _ os).
  assert (Hc0 : forall l, In l c0 <-> exists l', l = lnot l' /\ obj_lit os l' /\ lit_value sol l' = Some true).
  { intros l. unfold c0. rewrite in_flat_map. split.
    - intros (o & Ho & Hl). apply in_flat_map in Hl. destruct Hl as (lw & Hlw & Hl).
      destruct (is_true (lit_value sol (fst lw))) eqn:e; [|destruct Hl].
      destruct Hl as [<-|[]]. exists (fst lw). split; [reflexivity|]. split.
      + exists o. split; [exact Ho|]. now apply in_map.
      + destruct (lit_value sol (fst lw)) as [[]|]; cbn in e; congruence.
    - intros (l' & -> & (o & Ho & Hl) & Hv). exists o. split; [exact Ho|]. apply in_flat_map.
      apply in_map_iff in Hl. destruct Hl as (lw & <- & Hlw). exists lw. split; [exact Hlw|].
      rewrite Hv. left. reflexivity. }
  destruct (existsb _ c0) eqn:e.
  - exfalso. apply existsb_exists in e. destruct e as (l & H1 & H2). apply lit_mem_in in H2.
    apply Hc0 in H1, H2. destruct H1 as (l1 & -> & _ & Hv1), H2 as (l2 & E2 & _ & Hv2).
    apply lnot_inj in E2. subst l2. unfold lit_value in Hv1, Hv2. rewrite lvar_lnot in Hv2.
    destruct (var_value sol (lvar l1)) as [b|]; [|discriminate]. cbn in Hv2.
    injection Hv1 as Hv1. injection Hv2 as Hv2. rewrite <- Hv1 in Hv2. destruct (lneg l1), b; discriminate.
  - eexists. split; [reflexivity|]. intros l. rewrite clause_dedup_in. apply Hc0.
Qed.
Lemma pmcs_block_iff os sol c a : block_pareto_mcs os sol = Some c ->
  (clause_true a c = false <->
   forall l, obj_lit os l -> lit_value sol l = Some true -> lit_true a l = true).
Proof.
  intros H. destruct (pmcs_block os sol) as (c' & H' & Hc). rewrite H in H'. injection H' as <-.
  rewrite clause_false_iff. split.
  - intros G l H1 H2. specialize (G (lnot l)). rewrite lit_true_lnot in G.
    apply negb_false_iff, G, Hc. eauto.
  - intros G l Hl. apply Hc in Hl. destruct Hl as (l' & -> & H1 & H2).
    rewrite lit_true_lnot. now rewrite G.
Qed.
Lemma pmcs_block_vars os sol c v : block_pareto_mcs os sol = Some c -> In v (lits_vars c) -> v < length sol.
Proof.
  intros H Hv. destruct (pmcs_block os sol) as (c' & H' & Hc). rewrite H in H'. injection H' as <-.
  apply in_lits_vars in Hv. destruct Hv as (l & Hl & <-). apply Hc in Hl. destruct Hl as (l' & -> & _ & H2).
  rewrite lvar_lnot. unfold lit_value, var_value in H2. apply nth_error_Some.
  destruct (nth_error sol (lvar l')); [discriminate|discriminate].
Qed.

Lemma wsum_le_of a b ls : (forall l, In l (map fst ls) -> lit_true a l = true -> lit_true b l = true) ->
  wsum a ls <= wsum b ls.
Proof.
  induction ls as [|[l w] ls IH]; intros H; cbn [wsum]; [lia|].
  assert (G := H l (or_introl eq_refl)). specialize (IH (fun l' Hl => H l' (or_intror Hl))).
  destruct (lit_true a l); [rewrite (G eq_refl); lia|]. destruct (lit_true b l); lia.
Qed.

Lemma build_In rs k o : In o (build_objs k rs) -> exists r j, In r rs /\ o = obj_new (fst r) (snd r) j.
Proof.
  revert k. induction rs as [|r rs IH]; intros k; cbn; [intros []|]. intros [<-|H].
  - exists r, k. auto.
  - destruct (IH _ H) as (r' & j & H1 & H2). exists r', j. auto.
Qed.

Lemma extends_sol_of a m n : extends a (sol_of m n) <-> agree (fun v => v <= n) a m.
Proof.
  split.
  - intros H v Hv. apply H. now apply sol_of_nth.
  - intros H v b Hv. destruct (Nat.le_gt_cases v n) as [Hle|Hgt].
    + rewrite sol_of_nth in Hv by exact Hle. injection Hv as <-. apply H, Hle.
    + rewrite sol_of_nth_out in Hv by exact Hgt. discriminate.
Qed.

Lemma enum_blk_ok i o : Forall obj_ok (in_objs i) -> enum_ok i o ->
  blk_ok (fun a => sat a (in_cls i)) o (build_objs 0 (in_objs i)) (vm_max_orig (in_vm i)).
Proof.
  intros Hok He. unfold blk_ok, enum_ok in *. destruct (o_enum o) as [|lim|lim] eqn:Hen; [now left| |].
  - right. intros m Hm Hp. destruct He as [Hb Hd]. unfold yield_block_clause. rewrite Hen.
    eexists. split; [reflexivity|]. rewrite Hb. split; [|split].
    + intros v Hv. apply default_block_vars in Hv. rewrite sol_of_length in Hv. lia.
    + apply default_block_iff. apply extends_sol_of, agree_refl.
    + intros a Ha Hc. apply default_block_iff, extends_sol_of in Hc.
      apply (ic_le _ Hok). apply Hd; [exact Hm|exact Ha| |].
      * intros v Hv. symmetry. apply Hc. unfold n_orig in Hv. lia.
      * apply (ipareto_iff _ Hok (in_cls i) 0 m Hm). exact Hp.
  - right. intros m Hm _. unfold yield_block_clause. rewrite Hen.
    destruct (pmcs_block (build_objs 0 (in_objs i)) (sol_of m (vm_max_orig (in_vm i)))) as (c & Hc & _).
    exists c. split; [exact Hc|].
    assert (Hlow : forall l, obj_lit (build_objs 0 (in_objs i)) l -> lvar l <= vm_max_orig (in_vm i)).
    { intros l (ob & Ho & Hl). destruct (build_In _ _ _ Ho) as (r & j & Hr & ->).
      assert (lvar l < n_orig i); [|unfold n_orig in *; lia].
      apply (He r); [exact Hr|]. apply (obj_new_vars _ (snd r) j). now apply in_map. }
    split; [|split].
    + intros v Hv. apply (pmcs_block_vars _ _ _ _ Hc) in Hv. rewrite sol_of_length in Hv. lia.
    + apply (pmcs_block_iff _ _ _ _ Hc). intros l Hl Hv.
      rewrite lit_value_sol_of in Hv by auto. congruence.
    + intros a Ha Hf. rewrite (pmcs_block_iff _ _ _ a Hc) in Hf.
      unfold ic. assert (G : forall os', incl os' (build_objs 0 (in_objs i)) -> vle (ic os' m) (ic os' a)).
      { induction os' as [|x os' IH]; intros Hi; cbn; constructor.
        - apply wsum_le_of. intros l Hl Ht.
          assert (Hol : obj_lit (build_objs 0 (in_objs i)) l).
          { exists x. split; [apply Hi; now left|exact Hl]. }
          apply Hf; [exact Hol|]. rewrite lit_value_sol_of by auto. now rewrite Ht.
        - apply IH. intros y Hy. apply Hi. now right. }
      apply G, incl_refl.
Qed.
