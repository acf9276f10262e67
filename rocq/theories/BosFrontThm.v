(** * The front of a BiOptSat run with proof logging *)
From Coq Require Import List Arith ZArith Lia Bool.
From Verif Require Import Spec ApiSpec Base BaseLemmas Sem Ext MTypes MKernel MPMinimal MPrepro VeriPB VeriThm MProofs ProofThm ProofRun ProofCut ProofCert TracerThm ReformSpec MProofAlg ReifSpec BlockSpec BosSpec RunSpec RunThm RunSol BosRunSpec BosRunThm BoostSpec BoostThm MProofRun FrontThm MProofBos.
Import ListNotations.
Local Open Scope nat_scope.

(** what an event does to the state *)
Lemma bos_event_cases : forall k0 n (sol : assignment -> Prop) s s', bos_event k0 n sol s s' -> br_end s = None /\
  ((r_done (br_r s') = r_done (br_r s) /\ br_lb s' = br_lb s /\ br_end s' = None) \/
   (exists b c0, r_done (br_r s') = b :: r_done (br_r s) /\ br_end s' = None /\ nth_error (r_cs (br_r s)) 0 = Some c0 /\ br_lb s' = icost (co_obj c0) (asg_of b) + 1) \/
   (exists b, r_done (br_r s') = b :: r_done (br_r s) /\ br_end s' <> None)).
Proof.
  intros k0 n sol s s' E. destruct E as [r r' b lb f i d S Ed|c0 c1 nv p L done b lb f i d fuel cost first core core_id id p' Hc El Hid|c0 c1 nv p L done b lb f i d fuel base cost first core core_id id p' Hc El Hid|s c0 c1 nv p L done b lb f i sb w inc dec out0 inc_id assumps first0 first1 lb_id pmin p1 b' p2 D Es Hb Hd Hw Ei Edc Hdl S0 S1 Hlow Hoff Hinc Hout Ec Eb HD|s c0 c1 nv p L done b lb f i d sb w inc out0 inc_id pmin p1 id p2 Es Hb Hd Hw Ei Hdl S0 S1 Hlow Hoff Hinc Ec Eb]; try rewrite Es; cbn [br_r br_end br_lb r_done r_cs].
  - split; [reflexivity|]. left. split; [exact Ed|]. split; reflexivity.
  - split; [reflexivity|]. left. split; [reflexivity|]. split; reflexivity.
  - split; [reflexivity|]. left. split; [reflexivity|]. split; reflexivity.
  - split; [reflexivity|]. right. left. exists sb, c0. split; [reflexivity|]. split; [reflexivity|]. split; [reflexivity|]. rewrite Ei. reflexivity.
  - split; [reflexivity|]. right. right. exists sb. split; [reflexivity|discriminate].
Qed.
Lemma cons_neq : forall (b : assignment) D, b :: D <> D.
Proof. intros b D E. apply (f_equal (@List.length _)) in E. cbn [List.length] in E. lia. Qed.

Definition pend (at_ : bplace) : list assignment := match at_ with BoYielded b => [b] | _ => [] end.
Definition point_of (rs : list raw_obj) (b : assignment) : nd_point assignment := mkNd (costs rs (asg_of b)) [b].
(** [b] comes after [d] in the front *)
Definition after (o0 o1 : objective) (b d : assignment) : Prop :=
  icost o0 (asg_of d) < icost o0 (asg_of b) /\ icost o1 (asg_of b) < icost o1 (asg_of d).
Definition beats (o0 o1 : objective) (b d : assignment) : Prop :=
  icost o0 (asg_of b) < icost o0 (asg_of d) \/ icost o1 (asg_of b) < icost o1 (asg_of d).
Definition fresh (n : nat) (cls : list clause) (o0 o1 : objective) (done : list assignment) (b : assignment) : Prop :=
  inst_sol n cls b /\ forall d, In d done -> beats o0 o1 b d.

Record b_inv (k0 : chk) (n : nat) (cls : list clause) (rs : list raw_obj) (o0 o1 : objective) (dec_lb : nat) (s : bfstate) : Prop := mkBInv {
  bv_ok : bos_ok k0 n (inst_sol n cls) (bf_s s);
  bv_two : map co_obj (r_cs (br_r (bf_s s))) = [o0; o1];
  bv_sols : forall d, In d (r_done (br_r (bf_s s))) -> inst_sol n cls d;
  bv_end : bf_at s = BoDone -> br_end (bf_s s) <> None;
  (** the clauses handed to the solver bound the decreasing objective *)
  bv_barrier : bf_at s <> BoDone -> forall w, sat w cls -> models_handed w (r_p (br_r (bf_s s))) ->
    forall d, In d (r_done (br_r (bf_s s))) -> icost o1 w < icost o1 (asg_of d);
  bv_lb : bf_at s <> BoDone -> forall b, fresh n cls o0 o1 (r_done (br_r (bf_s s))) b -> br_lb (bf_s s) <= icost o0 (asg_of b);
  bv_prev : bf_at s <> BoDone -> forall d, In d (r_done (br_r (bf_s s))) -> icost o0 (asg_of d) < br_lb (bf_s s);
  bv_at : match bf_at s with
    | BoSearch | BoDone => True
    | BoInc w => fresh n cls o0 o1 (r_done (br_r (bf_s s))) (truncate w n)
    | BoDec inc w => fresh n cls o0 o1 (r_done (br_r (bf_s s))) (truncate w n) /\ icost o0 (asg_of (truncate w n)) = inc /\
        forall b, fresh n cls o0 o1 (r_done (br_r (bf_s s))) b -> inc <= icost o0 (asg_of b)
    | BoYielded b => fresh n cls o0 o1 (r_done (br_r (bf_s s))) b /\
        forall b', fresh n cls o0 o1 (r_done (br_r (bf_s s))) b' -> icost o0 (asg_of b) < icost o0 (asg_of b') \/
          icost o0 (asg_of b) = icost o0 (asg_of b') /\ icost o1 (asg_of b) <= icost o1 (asg_of b')
    end;
  bv_front : bf_front s = map (point_of rs) (rev (pend (bf_at s) ++ r_done (br_r (bf_s s))));
  bv_opt : forall d, In d (pend (bf_at s) ++ r_done (br_r (bf_s s))) -> pareto_optimal cls rs (costs rs (asg_of d));
  bv_order : ForallOrdPairs (after o0 o1) (pend (bf_at s) ++ r_done (br_r (bf_s s)))
}.

Lemma better_two : forall o0 o1 cs b d, map co_obj cs = [o0; o1] -> (better cs b d <-> beats o0 o1 b d).
Proof.
  intros o0 o1 cs b d E. destruct cs as [|c0 [|c1 [|]]]; try discriminate. cbn [map] in E. injection E as <- <-. split.
  - intros (c & [<-|[<-|[]]] & L); [left|right]; exact L.
  - intros [L|L]; [exists c0|exists c1]; (split; [cbn; tauto|exact L]).
Qed.

Section BosFront.
Variables (k0 : chk) (n : nat) (cls : list clause) (rs : list raw_obj) (o0 o1 : objective) (dec_lb : nat).
Hypothesis Hok : Forall obj_ok rs.
Hypothesis Hfit : Forall obj_fits rs.
Hypothesis Hv : inst_vars n cls rs.
Hypothesis Hbare : map bare [o0; o1] = map bare (build_objs 0 rs).
Hypothesis Hview : forall v, externalize_all [o0; o1] v = externalize_all (build_objs 0 rs) v.
(** the lower bound of the decreasing objective holds for all solutions *)
Hypothesis Hdlb : forall b, inst_sol n cls b -> dec_lb <= icost o1 (asg_of b).
Notation sol := (inst_sol n cls).
Notation inv := (b_inv k0 n cls rs o0 o1 dec_lb).
Let Htot : forall b, sol b -> total_to n b := fun b Hb => proj1 Hb.

Lemma two_costs : forall b, ic (build_objs 0 rs) (asg_of b) = [icost o0 (asg_of b); icost o1 (asg_of b)].
Proof. intros b. rewrite <- (bare_ic _ _ (asg_of b) Hbare). reflexivity. Qed.
Lemma forall2_two : forall x y x' y', Forall2 le [x; y] [x'; y'] -> x <= x' /\ y <= y'.
Proof. intros x y x' y' H. inversion_clear H as [|? ? ? ? X H2]. inversion_clear H2 as [|? ? ? ? Y H3]. split; assumption. Qed.
Lemma two_le : forall d b, weakly_dominates (costs rs (asg_of d)) (costs rs (asg_of b)) <->
  icost o0 (asg_of d) <= icost o0 (asg_of b) /\ icost o1 (asg_of d) <= icost o1 (asg_of b).
Proof.
  intros d b. rewrite <- (ic_le rs Hok 0), !two_costs. unfold vle. split.
  - intros H. pose proof (forall2_two _ _ _ _ H) as X. exact X.
  - intros (H1 & H2). constructor; [exact H1|]. constructor; [exact H2|constructor].
Qed.
Lemma two_ext : forall b, externalize_all [o0; o1] [icost o0 (asg_of b); icost o1 (asg_of b)] = Some (costs rs (asg_of b)).
Proof. intros b. rewrite Hview, <- two_costs. apply (ext_all rs Hok 0 (asg_of b) Hfit). Qed.

(** the solver has no solution under the assumptions, so no remaining solution satisfies them *)
Lemma unsat_no : forall r A b, run_ok k0 n sol r -> map co_obj (r_cs r) = [o0; o1] -> solver_unsat k0 r A -> fresh n cls o0 o1 (r_done r) b ->
  ~ forall x, (forall e, In e (k_all (kof k0 (r_p r))) -> lb_holds x (snd e)) ->
      (forall c, In c (r_cs r) -> icost (co_obj c) (on_solver x) = icost (co_obj c) (asg_of b)) -> lits_true (on_solver x) A.
Proof.
  intros r A b R E2 (core & id & C & Hi & Hin & Hsame) (Hb & Hd) H.
  destruct (run_extends k0 n sol r b Htot R Hb (fun d X => proj2 (better_two o0 o1 _ b d E2) (Hd d X))) as (x & Hx & Hval).
  pose proof (Hx _ Hin) as HC. cbn [snd] in HC. rewrite (lb_same_holds pv_eqd _ _ Hsame) in HC. apply lb_clause_holds in HC. destruct HC as (l & Hl & T).
  apply in_map_iff in Hl. destruct Hl as (l' & <- & Hl). apply in_map_iff in Hl. destruct Hl as (l & <- & Hl). apply Hi in Hl.
  assert (TA : lits_true (on_solver x) A).
  { apply H; [exact Hx|]. intros c Hc. apply wsum_ext. intros [y w] Hy. cbn [fst]. unfold lit_true, on_solver. rewrite (Hval (lvar y)); [reflexivity|]. exact (ro_objs _ _ _ _ R c y w Hc Hy). }
  specialize (TA l Hl). revert TA T. unfold lit_true, on_solver, ax_true, axiom, lnot. cbn [ax_var ax_neg lvar lneg]. destruct (lneg l), (x (PVs (lvar l))); discriminate.
Qed.
Lemma trunc_cost2 : forall r w o, run_ok k0 n sol r -> map co_obj (r_cs r) = [o0; o1] -> o = o0 \/ o = o1 -> icost o (asg_of (truncate w n)) = icost o (asg_of w).
Proof.
  intros r w o R E2 Ho. assert (X : In o (map co_obj (r_cs r))) by (rewrite E2; cbn; intuition congruence). apply in_map_iff in X. destruct X as (c & <- & Hc). exact (trunc_cost k0 n cls r w c R Hc).
Qed.
(** a solution of the solver beats all earlier ones *)
Lemma sat_fresh : forall s w, inv s -> bf_at s <> BoDone -> solver_sat n cls (br_r (bf_s s)) w -> fresh n cls o0 o1 (r_done (br_r (bf_s s))) (truncate w n).
Proof.
  intros s w I Ha Hw. split; [exact (trunc_sol n cls rs Hv _ w Hw)|]. intros d Hd. right. destruct Hw as (_ & Hs & Hm).
  rewrite (trunc_cost2 _ w o1 (bo_run _ _ _ _ (bv_ok _ _ _ _ _ _ _ _ I)) (bv_two _ _ _ _ _ _ _ _ I) (or_intror eq_refl)). exact (bv_barrier _ _ _ _ _ _ _ _ I Ha (asg_of w) Hs Hm d Hd).
Qed.
(** the solution at the minimum of both searches is Pareto-optimal *)
Lemma minimum_optimal : forall D b, fresh n cls o0 o1 D b ->
  (forall b', fresh n cls o0 o1 D b' -> icost o0 (asg_of b) < icost o0 (asg_of b') \/ icost o0 (asg_of b) = icost o0 (asg_of b') /\ icost o1 (asg_of b) <= icost o1 (asg_of b')) ->
  pareto_optimal cls rs (costs rs (asg_of b)).
Proof.
  intros D b (Hb & Hd) Hmin. split; [exists (asg_of b); split; [exact (proj2 Hb)|reflexivity]|]. intros a Ha (Hle & Hne). set (b2 := as_sol n a).
  assert (Hb2 : sol b2).
  { split; [apply as_sol_total|]. apply (sat_ext cls n a); [exact (proj1 Hv)| |exact Ha]. intros x Hx. symmetry. apply as_sol_val. exact Hx. }
  assert (Ecost : costs rs a = costs rs (asg_of b2)).
  { unfold costs. apply map_ext_in. intros o Ho. unfold obj_value. f_equal. f_equal. apply wsum_ext. intros [l w] Hl. cbn [fst]. unfold lit_true.
    rewrite <- (as_sol_val n a (lvar l)); [reflexivity|]. exact (proj2 Hv o l w Ho Hl). }
  rewrite Ecost in Hle, Hne. pose proof (proj1 (two_le b2 b) Hle) as (L0 & L1).
  assert (Hf : fresh n cls o0 o1 D b2).
  { split; [exact Hb2|]. intros d Hin. destruct (Hd d Hin) as [X|X]; [left|right]; lia. }
  destruct (Hmin b2 Hf) as [X|(X & Y)]; [lia|]. apply Hne. apply (ic_eq rs Hok 0). rewrite !two_costs. f_equal; [lia|]. f_equal. lia.
Qed.

(** ** The invariant is kept *)
Lemma event_two : forall s s', bos_event k0 n sol s s' -> map co_obj (r_cs (br_r s')) = map co_obj (r_cs (br_r s)).
Proof. intros s s' E. exact (proj1 (bos_done k0 n sol s s' (br_more _ _ _ _ _ _ (br_refl _ _ _ s) E))). Qed.
Lemma event_barrier : forall s s', inv s -> bf_at s <> BoDone -> enc_works k0 cls (br_r (bf_s s)) -> bos_event k0 n sol (bf_s s) s' -> br_end s' = None ->
  forall w, sat w cls -> models_handed w (r_p (br_r s')) -> forall d, In d (r_done (br_r s')) -> icost o1 w < icost o1 (asg_of d).
Proof.
  intros s s' I Ha W E En w Hs Hm d Hd. destruct (bos_event_new k0 n sol (bf_s s) s' w Htot (bv_ok _ _ _ _ _ _ _ _ I) E En) as (G & Q).
  assert (Hm0 : models_handed w (r_p (br_r (bf_s s)))) by (intros c id Hc; exact (Hm c id (G _ Hc))).
  assert (He : enforces w (r_cs (br_r (bf_s s)))) by (intros c v as_ Hc _ Ea T; exact (proj1 (W c v as_ Hc Ea) w Hs Hm0 T)).
  destruct (Q Hm He d Hd) as [X|(c & Ec & L)]; [exact (bv_barrier _ _ _ _ _ _ _ _ I Ha w Hs Hm0 d X)|].
  assert (co_obj c = o1) as <-; [|exact L]. pose proof (map_nth_error co_obj 1 _ Ec) as X. rewrite (bv_two _ _ _ _ _ _ _ _ I) in X. cbn in X. congruence.
Qed.
Lemma enforced : forall r c v A w, run_ok k0 n sol r -> enc_works k0 cls r -> In c (r_cs r) -> pe_enforce_ub (co_enc c) v = Some A -> solver_sat n cls r w -> lits_true (asg_of w) A ->
  cost_of c w <= v.
Proof. intros r c v A w R W Hc Ea (_ & Hs & Hm) T. exact (proj1 (W c v A Hc Ea) (asg_of w) Hs Hm T). Qed.

Lemma b_step_inv : forall s s', inv s -> enc_works k0 cls (br_r (bf_s s)) -> bf_step k0 n cls dec_lb s s' -> inv s'.
Proof.
  intros s s' I W S. destruct S as [at_ s s' F E Ed|s F w Hw|s F w c0 c1 A w' Ecs Hl EA Hw' HT|s F w c0 c1 Ecs Hstop|s F inc w c0 c1 A B w' Ecs Hl EA EB Hw' HT|s F inc w c0 c1 c Ecs Hstop Ec|s s' F b E Ed En|s s' F b E Ed En].
  - pose proof (bos_event_cases _ _ _ _ _ E) as (En0 & Cs).
    assert (Ha : at_ <> BoDone) by (intros X; exact (bv_end _ _ _ _ _ _ _ _ I X En0)).
    destruct Cs as [(_ & El & En)|[(b & c0 & Eb & _)|(b & Eb & _)]]; [|exfalso; rewrite Ed in Eb; exact (cons_neq b _ (eq_sym Eb))|exfalso; rewrite Ed in Eb; exact (cons_neq b _ (eq_sym Eb))].
    pose proof (event_barrier _ _ I Ha W E En) as HB. destruct I as [I1 I2 I3 I4 I5 I6 I7 I8 I9 I10 I11]. cbn [bf_at bf_s bf_front] in *. constructor; cbn [bf_at bf_s bf_front]; rewrite ?Ed, ?El.
    + exact (bos_event_ok _ _ _ _ _ Htot I1 E).
    + rewrite (event_two _ _ E). exact I2.
    + exact I3.
    + intros X. contradiction.
    + intros _ w Hs Hm d Hd. apply (HB w Hs Hm d). rewrite Ed. exact Hd.
    + exact I6.
    + exact I7.
    + exact I8.
    + exact I9.
    + exact I10.
    + exact I11.
  - assert (Hf : fresh n cls o0 o1 (r_done (br_r s)) (truncate w n)) by (apply (sat_fresh _ w I); [discriminate|exact Hw]).
    destruct I as [I1 I2 I3 I4 I5 I6 I7 I8 I9 I10 I11]. cbn [bf_at bf_s bf_front pend app] in *. constructor; cbn [bf_at bf_s bf_front pend app]; try assumption; [discriminate|intros _; apply I5; discriminate|intros _; apply I6; discriminate|intros _; apply I7; discriminate].
  - assert (Hf : fresh n cls o0 o1 (r_done (br_r s)) (truncate w' n)) by (apply (sat_fresh _ w' I); [discriminate|exact Hw']).
    destruct I as [I1 I2 I3 I4 I5 I6 I7 I8 I9 I10 I11]. cbn [bf_at bf_s bf_front pend app] in *. constructor; cbn [bf_at bf_s bf_front pend app]; try assumption; [discriminate|intros _; apply I5; discriminate|intros _; apply I6; discriminate|intros _; apply I7; discriminate].
  - destruct I as [I1 I2 I3 I4 I5 I6 I7 I8 I9 I10 I11]. cbn [bf_at bf_s bf_front pend app] in *. pose proof (bo_run _ _ _ _ I1) as R.
    assert (E0 : co_obj c0 = o0) by (rewrite Ecs in I2; cbn [map] in I2; congruence).
    assert (Ew : cost_of c0 w = icost o0 (asg_of (truncate w n))) by (unfold cost_of; rewrite E0; symmetry; apply (trunc_cost2 (br_r s)); [exact R|exact I2|left; reflexivity]).
    constructor; cbn [bf_at bf_s bf_front pend app]; try assumption; [discriminate|intros _; apply I5; discriminate|intros _; apply I6; discriminate|intros _; apply I7; discriminate|].
    split; [exact I8|]. split; [symmetry; exact Ew|]. intros b Hb. destruct Hstop as [L|(A & EA & U)]; [specialize (I6 ltac:(discriminate) b Hb); lia|].
    destruct (Nat.le_gt_cases (cost_of c0 w) (icost o0 (asg_of b))) as [X|X]; [exact X|]. exfalso. apply (unsat_no _ _ b R I2 U Hb). intros x Hx Hc.
    assert (Hin : In c0 (r_cs (br_r s))) by (rewrite Ecs; left; reflexivity). apply (proj2 (W c0 _ A Hin EA) x Hx). rewrite (Hc c0 Hin), E0. lia.
  - assert (Hf : fresh n cls o0 o1 (r_done (br_r s)) (truncate w' n)) by (apply (sat_fresh _ w' I); [discriminate|exact Hw']).
    destruct I as [I1 I2 I3 I4 I5 I6 I7 I8 I9 I10 I11]. cbn [bf_at bf_s bf_front pend app] in *. pose proof (bo_run _ _ _ _ I1) as R. destruct I8 as (F1 & F2 & F3).
    assert (E0 : co_obj c0 = o0) by (rewrite Ecs in I2; cbn [map] in I2; congruence).
    constructor; cbn [bf_at bf_s bf_front pend app]; try assumption; [discriminate|intros _; apply I5; discriminate|intros _; apply I6; discriminate|intros _; apply I7; discriminate|].
    split; [exact Hf|]. split; [|exact F3]. apply Nat.le_antisymm; [|apply F3; exact Hf]. rewrite (trunc_cost2 (br_r s) w' o0 R I2 (or_introl eq_refl)), <- E0.
    apply (enforced (br_r s) c0 inc A w' R W); [rewrite Ecs; left; reflexivity|exact EA|exact Hw'|]. intros l Hl'. apply HT. apply in_or_app. left. exact Hl'.
  - destruct I as [I1 I2 I3 I4 I5 I6 I7 I8 I9 I10 I11]. cbn [bf_at bf_s bf_front pend app] in *. pose proof (bo_run _ _ _ _ I1) as R. destruct I8 as (F1 & F2 & F3).
    assert (E0 : co_obj c0 = o0) by (rewrite Ecs in I2; cbn [map] in I2; congruence). assert (E1 : co_obj c1 = o1) by (rewrite Ecs in I2; cbn [map] in I2; congruence).
    assert (W0 : cost_of c0 w = icost o0 (asg_of (truncate w n))) by (unfold cost_of; rewrite E0; symmetry; apply (trunc_cost2 (br_r s)); [exact R|exact I2|left; reflexivity]).
    assert (W1 : cost_of c1 w = icost o1 (asg_of (truncate w n))) by (unfold cost_of; rewrite E1; symmetry; apply (trunc_cost2 (br_r s)); [exact R|exact I2|right; reflexivity]).
    rewrite E0, E1, W0, W1, two_ext in Ec. injection Ec as <-. set (b := truncate w n) in *.
    assert (Hmin : forall b', fresh n cls o0 o1 (r_done (br_r s)) b' -> icost o0 (asg_of b) < icost o0 (asg_of b') \/ icost o0 (asg_of b) = icost o0 (asg_of b') /\ icost o1 (asg_of b) <= icost o1 (asg_of b')).
    { intros b' Hb'. pose proof (F3 b' Hb') as L0. destruct (Nat.eq_dec inc (icost o0 (asg_of b'))) as [Eq|Ne]; [right|left; lia]. split; [lia|].
      destruct Hstop as [L|(A & B & EA & EB & U)]; [pose proof (Hdlb b' (proj1 Hb')); lia|].
      destruct (Nat.le_gt_cases (icost o1 (asg_of b)) (icost o1 (asg_of b'))) as [X|X]; [exact X|]. exfalso. apply (unsat_no _ _ b' R I2 U Hb'). intros x Hx Hc.
      assert (H0 : In c0 (r_cs (br_r s))) by (rewrite Ecs; left; reflexivity). assert (H1 : In c1 (r_cs (br_r s))) by (rewrite Ecs; right; left; reflexivity).
      intros l Hl. apply in_app_or in Hl. destruct Hl as [Hl|Hl]; revert l Hl.
      - apply (proj2 (W c0 _ A H0 EA) x Hx). rewrite (Hc c0 H0), E0. lia.
      - apply (proj2 (W c1 _ B H1 EB) x Hx). rewrite (Hc c1 H1), E1. lia. }
    constructor; cbn [bf_at bf_s bf_front pend app]; try assumption; [discriminate|intros _; apply I5; discriminate|intros _; apply I6; discriminate|intros _; apply I7; discriminate|split; [exact F1|exact Hmin]| | |].
    + cbn [rev]. rewrite map_app, I9. reflexivity.
    + intros d [<-|Hd]; [exact (minimum_optimal _ _ F1 Hmin)|exact (I10 d Hd)].
    + constructor; [|exact I11]. apply Forall_forall. intros d Hd. pose proof (I7 ltac:(discriminate) d Hd) as P. pose proof (I6 ltac:(discriminate) b F1) as Q.
      split; [lia|]. destruct (proj2 F1 d Hd) as [X|X]; [lia|exact X].
  - pose proof (bos_event_cases _ _ _ _ _ E) as (En0 & Cs). assert (Ha : BoYielded b <> BoDone) by discriminate. pose proof (event_barrier _ _ I Ha W E En) as HB.
    destruct I as [I1 I2 I3 I4 I5 I6 I7 I8 I9 I10 I11]. cbn [bf_at bf_s bf_front pend app] in *. destruct I8 as (F1 & Hmin).
    destruct Cs as [(Eb & _)|[(b' & c0 & Eb & _ & Ec & El)|(b' & _ & X)]]; [exfalso; rewrite Ed in Eb; exact (cons_neq b _ Eb)| |exfalso; exact (X En)].
    assert (b' = b) as -> by congruence. assert (E0 : co_obj c0 = o0) by (pose proof (map_nth_error co_obj 0 _ Ec) as X; rewrite I2 in X; cbn in X; congruence). rewrite E0 in El.
    constructor; cbn [bf_at bf_s bf_front pend app]; rewrite ?Ed, ?El.
    + exact (bos_event_ok _ _ _ _ _ Htot I1 E).
    + rewrite (event_two _ _ E). exact I2.
    + intros d [<-|Hd]; [exact (proj1 F1)|exact (I3 d Hd)].
    + discriminate.
    + intros _ w Hs Hm d Hd. apply (HB w Hs Hm d). rewrite Ed. exact Hd.
    + intros _ b2 (Hb2 & Hd2). assert (Hf : fresh n cls o0 o1 (r_done (br_r s)) b2) by (split; [exact Hb2|intros d Hd; apply Hd2; right; exact Hd]).
      pose proof (Hmin b2 Hf) as M. pose proof (Hd2 b (or_introl eq_refl)) as [X|X]; lia.
    + intros _ d [<-|Hd]; [lia|]. pose proof (I7 ltac:(discriminate) d Hd). pose proof (I6 ltac:(discriminate) b F1). lia.
    + exact Logic.I.
    + exact I9.
    + exact I10.
    + exact I11.
  - pose proof (bos_event_cases _ _ _ _ _ E) as (En0 & Cs). destruct I as [I1 I2 I3 I4 I5 I6 I7 I8 I9 I10 I11]. cbn [bf_at bf_s bf_front pend app] in *. destruct I8 as (F1 & Hmin).
    constructor; cbn [bf_at bf_s bf_front pend app]; rewrite ?Ed; try (intros X; contradiction X; reflexivity).
    + exact (bos_event_ok _ _ _ _ _ Htot I1 E).
    + rewrite (event_two _ _ E). exact I2.
    + intros d [<-|Hd]; [exact (proj1 F1)|exact (I3 d Hd)].
    + intros _. exact En.
    + exact Logic.I.
    + exact I9.
    + exact I10.
    + exact I11.
Qed.
Lemma b_runs_inv : forall s s', inv s -> bf_runs k0 n cls dec_lb s s' -> inv s' /\ enc_works k0 cls (br_r (bf_s s')).
Proof.
  intros s s' I H. induction H as [s W|s1 s2 s3 H IH S W]; [split; assumption|]. destruct (IH I) as (I2 & W2). split; [exact (b_step_inv _ _ I2 W2 S)|exact W].
Qed.
End BosFront.

(** lower bounds found by core boosting hold for all solutions *)
Lemma boosted_lb : forall k0 n (sol : assignment -> Prop) r b c, (forall b, sol b -> total_to n b) -> run_ok k0 n sol r -> r_done r = [] -> sol b -> In c (r_cs r) -> obj_lb (co_obj c) <= icost (co_obj c) (asg_of b).
Proof.
  intros k0 n sol r b c Htot R D Hb Hc. destruct (run_extends k0 n sol r b Htot R Hb) as (x & Hx & Hval); [rewrite D; intros d []|].
  assert (Ei : icost (co_obj c) (on_solver x) = icost (co_obj c) (asg_of b)).
  { apply wsum_ext. intros [y w] Hy. cbn [fst]. unfold lit_true, on_solver. rewrite (Hval (lvar y)); [reflexivity|]. exact (ro_objs _ _ _ _ R c y w Hc Hy). }
  destruct (proj1 (Forall_forall _ _) (proj1 (ro_enc _ _ _ _ R)) c Hc) as (us & Es). pose proof (cok_reform _ _ _ Es) as Q. destruct (co_reform c) as [rid|]; [|destruct Q as (_ & Q); lia].
  destruct Q as (C & Hin & Q). apply rm_in in Hin. pose proof (Hx _ (proj1 Hin)) as HC. cbn [snd] in HC. rewrite val_holds, (Q x), Ei in HC.
  assert (P : (0 <= lb_sum x us)%Z).
  { pose proof (cok_pos _ _ _ Es) as P. clear -P. induction us as [|[u l] us IH]; [cbn; lia|]. cbn [lb_sum]. specialize (IH (fun t Ht => P t (or_intror Ht))). specialize (P _ (or_introl eq_refl)). cbn [fst] in P. unfold b2z. destruct (ax_true x l); lia. }
  lia.
Qed.
(** the start of the algorithm after core boosting *)
Lemma b_start : forall n cls rs cs r0 o0 o1, inst_vars n cls rs -> map co_obj cs = build_objs 0 rs -> (forall c b, In c cs -> pe_extend (co_enc c) b = []) ->
  let k0 := init_chk cls (build_objs 0 rs) in enc_fine (k_all k0) cs -> boosts k0 n (inst_sol n cls) (start_run n cls cs) r0 ->
  map co_obj (r_cs r0) = [o0; o1] ->
  map bare [o0; o1] = map bare (build_objs 0 rs) /\ (forall v, externalize_all [o0; o1] v = externalize_all (build_objs 0 rs) v) /\
  (forall b, inst_sol n cls b -> obj_lb o1 <= icost o1 (asg_of b)) /\
  b_inv k0 n cls rs o0 o1 (obj_lb o1) (mkBf BoSearch (bos_start r0 (obj_lb o0)) []).
Proof.
  intros n cls rs cs r0 o0 o1 Hv Eo Ex k0 Hf B E2. pose proof (boosted_ok n cls rs cs r0 Hv Eo Ex Hf B) as I. pose proof (bi_done _ _ _ _ _ I) as D.
  assert (Lb : forall o b, In o [o0; o1] -> inst_sol n cls b -> obj_lb o <= icost o (asg_of b)).
  { intros o b Ho Hb. rewrite <- E2 in Ho. apply in_map_iff in Ho. destruct Ho as (c & <- & Hc). exact (boosted_lb k0 n _ r0 b c (fun b Hb => proj1 Hb) (bi_ok _ _ _ _ _ I) D Hb Hc). }
  split; [rewrite <- E2; exact (bi_objs _ _ _ _ _ I)|]. split; [|split].
  - intros v. rewrite <- E2, ext_all_view, (boosts_view _ _ _ _ _ B). cbn [start_run r_cs]. rewrite <- ext_all_view, Eo. reflexivity.
  - intros b Hb. apply Lb; [right; left; reflexivity|exact Hb].
  - constructor; cbn [bf_at bf_s bf_front bos_start br_r br_lb br_end pend app]; rewrite ?D.
    + exact (bos_start_ok _ _ _ r0 (obj_lb o0) (bi_ok _ _ _ _ _ I)).
    + exact E2.
    + intros d [].
    + discriminate.
    + intros _ w _ _ d [].
    + intros _ b (Hb & _). apply Lb; [left; reflexivity|exact Hb].
    + intros _ d [].
    + exact Logic.I.
    + reflexivity.
    + intros d [].
    + constructor.
Qed.
