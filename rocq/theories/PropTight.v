(** * Solution tightening (C84)

    [solution_and_costs_tight] (MTight.v) is [get_solution_and_internal_costs] with the feature
    [sol-tightening]: it returns the solution and its costs after trying to flip objective literals
    in the solver.  [user_costs] and [flip_ok] are in TightSpec.v. *)
From Coq Require Import List Bool Arith Lia ZArith.
From Verif Require Import Base BaseLemmas Spec MTypes MKernel EncSpec Sem Kern Ext Init Blk ApiSpec Api ApiTop CbSpec CbApi
  MTight InproSpec InproThm PreproThm MaxPreThm TightSpec TightThm.
Import ListNotations.

Definition positive (i : inst) : Prop := forall r lw, In r (in_objs i) -> In lw (fst r) -> 0 < snd lw.

(** The result is a solution of the instance, the reported vector is no worse than the solution the
    solver had found, and the returned solution is no worse than the reported vector. *)
Theorem C84_improves : forall O i v tg t,
  inst_ok i -> lits_distinct i -> positive i -> flip_ok (in_cls i) (in_objs i) O ->
  vm_max_enc (in_vm i) <= v -> feasible (in_cls i) (ora_model O t) ->
  exists t' cs a, solution_and_costs_tight O (build_objs 0 (in_objs i)) tg v t = Some (t', cs, sol_of a v) /\
    length cs = length (in_objs i) /\ feasible (in_cls i) a /\
    weakly_dominates (costs (in_objs i) a) (user_costs (in_objs i) cs) /\
    weakly_dominates (user_costs (in_objs i) cs) (costs (in_objs i) (ora_model O t)) /\
    (not_shared (in_objs i) -> user_costs (in_objs i) cs = costs (in_objs i) a) /\
    (tg = false -> a = ora_model O t /\ user_costs (in_objs i) cs = costs (in_objs i) a).
Proof.
  intros O i v tg t HI HD HP HF Hv Hs.
  destruct (all_ok O i v tg HI HD HP HF Hv _ 0 t eq_refl Hs) as (t' & cs & E & S1 & M1 & L1 & L2 & _ & X1 & T1).
  exists t', cs, (ora_model O t'). unfold solution_and_costs_tight. rewrite E. split; [reflexivity|]. cbn [skipn] in *.
  pose proof (Forall2_len _ _ _ L1) as Hlen. unfold ic in Hlen. rewrite map_length, build_length in Hlen.
  pose proof (io_ok _ HI) as Hok.
  split; [congruence|]. split; [exact S1|].
  apply (user_le (in_objs i)) in L1, L2. rewrite user_ic in L1, L2 by exact Hok.
  split; [exact L1|]. split; [exact L2|]. split.
  - intros Hn. rewrite <- (user_ic (in_objs i) (ora_model O t') Hok 0). f_equal. symmetry. apply X1.
    intros j k o1 o2 l H1 H2 G1 G2. rewrite build_nth in H1, H2.
    destruct (nth_error (in_objs i) j) as [r1|] eqn:e1; [|discriminate].
    destruct (nth_error (in_objs i) k) as [r2|] eqn:e2; [|discriminate].
    injection H1 as <-. injection H2 as <-. apply obj_new_lits in G1, G2.
    apply in_map_iff in G1, G2. destruct G1 as ([l1 w1] & <- & G1). destruct G2 as ([l2 w2] & e & G2). cbn in e. subst l2.
    exact (Hn j k r1 r2 l1 w1 w2 e1 e2 G1 G2).
  - intros e. pose proof (T1 e) as ->. split; [reflexivity|]. apply wd_antisym; assumption.
Qed.
Print Assumptions C84_improves.

(** A reported vector that no solution improves on is the cost of the returned solution.  So a
    vector can be stale, but not when it is Pareto-optimal. *)
Theorem C84_optimal_exact : forall O i v tg t t' cs sol,
  inst_ok i -> lits_distinct i -> positive i -> flip_ok (in_cls i) (in_objs i) O ->
  vm_max_enc (in_vm i) <= v -> feasible (in_cls i) (ora_model O t) ->
  solution_and_costs_tight O (build_objs 0 (in_objs i)) tg v t = Some (t', cs, sol) ->
  (forall b, feasible (in_cls i) b -> ~ dominates (costs (in_objs i) b) (user_costs (in_objs i) cs)) ->
  exists a, sol = sol_of a v /\ feasible (in_cls i) a /\ costs (in_objs i) a = user_costs (in_objs i) cs /\
    pareto_optimal (in_cls i) (in_objs i) (user_costs (in_objs i) cs).
Proof.
  intros O i v tg t t' cs sol HI HD HP HF Hv Hs E Hno.
  destruct (C84_improves O i v tg t HI HD HP HF Hv Hs) as (t2 & cs2 & a & E2 & _ & Fa & W1 & _).
  rewrite E in E2. injection E2 as <- <- ->.
  assert (Heq : costs (in_objs i) a = user_costs (in_objs i) cs).
  { destruct (Zl_dec (costs (in_objs i) a) (user_costs (in_objs i) cs)) as [e|n]; [exact e|].
    exfalso. apply (Hno a Fa). split; assumption. }
  exists a. split; [reflexivity|]. split; [exact Fa|]. split; [exact Heq|]. split.
  - exists a. split; [exact Fa|exact Heq].
  - exact Hno.
Qed.
Print Assumptions C84_optimal_exact.

(** A solver that grants a flip if the clauses stay satisfied *)
Definition put (a : asg) (l : lit) : asg := fun v => if v =? lvar l then negb (lneg l) else a v.
Definition plain_flip (cls : list clause) : flip_oracle :=
  mkFlip asg (fun a => a) (fun a l =>
    if forallb (clause_true (put a l)) cls then (put a l, true) else (a, false)).

Lemma plain_flip_ok cls ros : flip_ok cls ros (plain_flip cls).
Proof.
  intros t l t' b Hs E. cbn [plain_flip ora_flip ora_model ora_st] in *.
  destruct (forallb (clause_true (put t l)) cls) eqn:e; injection E as <- <-.
  - split; [|split].
    + rewrite forallb_forall in e. exact e.
    + unfold lit_true, put. rewrite Nat.eqb_refl. now destruct (lneg l).
    + intros r x w _ _ Hne. unfold put. apply Nat.eqb_neq in Hne. now rewrite Hne.
  - reflexivity.
Qed.

(** ** The reported vector is not the cost of the returned solution

    When literals are shared, a later objective may flip a literal that an earlier one had to pay
    for.  The reported vector is then stale: no solution has these costs, and the returned one
    dominates them. *)
Definition st_i : inst := mkInst [[pos 0; neg 1]]
  [([(pos 0, 1)], 0%Z); ([(pos 1, 1); (pos 0, 1)], 0%Z)] (mkVm 2 1 1).
Lemma st_ok : inst_ok st_i /\ lits_distinct st_i /\ positive st_i.
Proof.
  split; [|split].
  - constructor.
    + cbn. lia.
    + cbn. lia.
    + intros v H. cbn in *. lia.
    + intros r v [<-|[<-|[]]] H; cbn in *; lia.
    + constructor; [|constructor; [|constructor]].
      * split; [left; repeat constructor; cbn; intuition discriminate|]. right. exists (pos 0, 1). split; [now left|discriminate].
      * split; [left; repeat constructor; cbn; intuition discriminate|]. right. exists (pos 1, 1). split; [now left|discriminate].
    + repeat constructor; cbn; unfold isize_max, isize_min; lia.
  - intros r [<-|[<-|[]]]; repeat constructor; cbn; intuition discriminate.
  - intros r lw [<-|[<-|[]]] H; cbn in H; intuition (subst; cbn; lia).
Qed.
Theorem C84_stale_refuted : exists O i t, inst_ok i /\ lits_distinct i /\ positive i /\
  flip_ok (in_cls i) (in_objs i) O /\ feasible (in_cls i) (ora_model O t) /\
  exists t' cs a, solution_and_costs_tight O (build_objs 0 (in_objs i)) true (vm_max_enc (in_vm i)) t =
      Some (t', cs, sol_of a (vm_max_enc (in_vm i))) /\
    feasible (in_cls i) a /\ dominates (costs (in_objs i) a) (user_costs (in_objs i) cs) /\
    forall b, feasible (in_cls i) b -> costs (in_objs i) b <> user_costs (in_objs i) cs.
Proof.
  exists (plain_flip (in_cls st_i)), st_i, (fun _ => true). destruct st_ok as (H1 & H2 & H3).
  split; [exact H1|]. split; [exact H2|]. split; [exact H3|]. split; [apply plain_flip_ok|].
  assert (Hs : feasible (in_cls st_i) (fun _ => true)) by (intros c [<-|[]]; reflexivity).
  split; [exact Hs|].
  exists (put (put (fun _ => true) (neg 1)) (neg 0)), [1; 0], (fun _ => false).
  split; [reflexivity|]. split; [intros c [<-|[]]; reflexivity|]. split.
  - split; [|discriminate]. vm_compute. repeat constructor; discriminate.
  - intros b Hb E. vm_compute in E. destruct (b 0), (b 1); discriminate.
Qed.
Print Assumptions C84_stale_refuted.

(** ** An example with weights and a literal of both signs

    The second objective has a literal that must not be flipped, since its negation is in the
    first. *)
Definition tx_i : inst := mkInst [[pos 0; pos 1]; [pos 2; pos 3; pos 0]]
  [([(pos 0, 2); (neg 2, 3)], 1%Z); ([(pos 1, 4); (pos 2, 2); (pos 3, 6)], (-1)%Z)] (mkVm 4 3 3).
Lemma tx_ok : inst_ok tx_i /\ lits_distinct tx_i /\ positive tx_i /\ not_shared (in_objs tx_i).
Proof.
  split; [|split; [|split]].
  - constructor.
    + cbn. lia.
    + cbn. lia.
    + intros v H. cbn in *. lia.
    + intros r v [<-|[<-|[]]] H; cbn in *; lia.
    + constructor; [|constructor; [|constructor]].
      * split; [left; repeat constructor; cbn; intuition discriminate|]. right. exists (pos 0, 2). split; [now left|discriminate].
      * split; [left; repeat constructor; cbn; intuition discriminate|]. right. exists (pos 1, 4). split; [now left|discriminate].
    + repeat constructor; cbn; unfold isize_max, isize_min; lia.
  - intros r [<-|[<-|[]]]; repeat constructor; cbn; intuition discriminate.
  - intros r lw [<-|[<-|[]]] H; cbn in H; intuition (subst; cbn; lia).
  - intros [|[|j]] [|[|k]] r1 r2 l w1 w2 E1 E2 G1 G2; try reflexivity; cbn in E1, E2;
      try (destruct j; discriminate); try (destruct k; discriminate);
      injection E1 as <-; injection E2 as <-; cbn in G1, G2; unfold pos, neg in G1, G2; intuition congruence.
Qed.
Example C84_example : flip_ok (in_cls tx_i) (in_objs tx_i) (plain_flip (in_cls tx_i)) /\
  feasible (in_cls tx_i) (fun _ => true) /\ costs (in_objs tx_i) (fun _ => true) = [3%Z; 11%Z].
Proof. split; [apply plain_flip_ok|]. split; [intros c [<-|[<-|[]]]; reflexivity|reflexivity]. Qed.
Definition tx_run (tg : bool) (a : asg) :=
  match solution_and_costs_tight (plain_flip (in_cls tx_i)) (build_objs 0 (in_objs tx_i)) tg 3 a with
  | Some (_, cs, sol) => Some (cs, user_costs (in_objs tx_i) cs, sol)
  | None => None
  end.
Example C84_example_tight : map (fun tg => tx_run tg (fun _ => true)) [true; false] = [Some ([0; 6], [1%Z; 5%Z], [Some false; Some true; Some true; Some false]); Some ([2; 12], [3%Z; 11%Z], [Some true; Some true; Some true; Some true])].
Proof. vm_compute. reflexivity. Qed.
(** A literal that has to stay true is paid for *)
Example C84_example_refused : map (fun tg => tx_run tg (fun v => negb (v =? 2))) [true; false] = [Some ([3; 10], [4%Z; 9%Z], [Some false; Some true; Some false; Some true]); Some ([5; 10], [6%Z; 9%Z], [Some true; Some true; Some false; Some true])].
Proof. vm_compute. reflexivity. Qed.
