(** * Model of the main loops with proof logging (pminimal.rs, lowerbounding.rs)

    MPMinimal.v and MLowerBounding.v model the two algorithms without the proof. Here their loops are modelled together with the
    proof, without solution enumeration, as a transition system over the states of the proof of RunSpec.v. Everything the solver
    and the encodings write in between is nondeterministic, and so are the answers of the solver; what an answer of the solver means
    is said by [solver_sat] and [solver_unsat]. The fence of lower-bounding only decides which solution is found next, and is not
    modelled. Limits, interrupts and logging are not modelled. *)
From Coq Require Import List Arith ZArith Bool.
From Verif Require Import Spec Base MTypes MKernel MPMinimal MPrepro Sem VeriPB MProofs ProofRun ReformSpec MProofAlg RunSpec.
Import ListNotations.

(** pminimal.rs 565-606 [enforce_dominating], after the encodings have been extended: the assumptions for the costs of a candidate;
    [None] is the panic of the [unwrap] in line 604 *)
Fixpoint dominating_assumps (cs : list cobj) : option (list lit) :=
  match cs with
  | [] => Some []
  | c :: r =>
      match pe_enforce_ub (co_enc c) (co_cost c), dominating_assumps r with
      | Some a, Some s => Some (a ++ s)
      | _, _ => None
      end
  end.

(** ** Answers of the solver *)
(** a solution of the clauses of the instance and of the clauses handed to the solver *)
Definition solver_sat (n : nat) (cls : list clause) (r : rst) (w : assignment) : Prop :=
  total_to n (truncate w n) /\ sat (asg_of w) cls /\ models_handed (asg_of w) (r_p r).
(** no solution under the assumptions [A]: the solver has derived the clause over the negated literals of a core
    (C50_core_id; without assumptions: the contradiction, C50_conclusion) *)
Definition solver_unsat (k0 : chk) (r : rst) (A : list lit) : Prop :=
  exists core id C, incl core A /\ In (id, C) (k_all (kof k0 (r_p r))) /\ lb_same pv_eqd C (clause_pb (map lnot core)).

(** ** The loops *)
(** before the next call to the solver in the outer loop (pminimal.rs 264, lowerbounding.rs 297 and 477), with a solution that has not
    been blocked yet (pminimal.rs 446), or after a solution has been blocked (pminimal.rs 533) *)
Inductive place := AtOuter | AtFound (w : assignment) | AtBlocked (b : assignment).
(** the front holds what has been yielded *)
Record fstate := mkFs { f_at : place; f_r : rst; f_front : list (nd_point assignment) }.

Inductive pm_step (k0 : chk) (n : nat) (cls : list clause) : fstate -> fstate -> Prop :=
(** lines of the solver and the encodings *)
| pm_work : forall at_ r r' F, run_step k0 n (inst_sol n cls) r r' -> r_done r' = r_done r ->
    pm_step k0 n cls (mkFs at_ r F) (mkFs at_ r' F)
(** pminimal.rs 264-279, lowerbounding.rs 477-492: the outer loop finds a solution, in lower-bounding within the fence *)
| pm_found : forall r F w, solver_sat n cls r w -> pm_step k0 n cls (mkFs AtOuter r F) (mkFs (AtFound w) r F)
(** pminimal.rs 447-481: the candidate is blocked *)
| pm_block : forall r r' F w, run_step k0 n (inst_sol n cls) r r' -> r_done r' = truncate w n :: r_done r ->
    pm_step k0 n cls (mkFs (AtFound w) r F) (mkFs (AtBlocked (truncate w n)) r' F)
(** pminimal.rs 533-559: a solution that weakly dominates the candidate becomes the next candidate *)
| pm_improve : forall r F b w A, dominating_assumps (for_sol (r_cs r) b) = Some A ->
    solver_sat n cls r w -> lits_true (asg_of w) A ->
    pm_step k0 n cls (mkFs (AtBlocked b) r F) (mkFs (AtFound w) r F)
(** pminimal.rs 540-550 and 280-294, lowerbounding.rs 493-498, algs.rs 667-742: there is no such solution, the candidate is yielded *)
| pm_yield : forall r F b A c, dominating_assumps (for_sol (r_cs r) b) = Some A -> solver_unsat k0 r A ->
    externalize_all (map co_obj (r_cs r)) (map co_cost (for_sol (r_cs r) b)) = Some c ->
    pm_step k0 n cls (mkFs (AtBlocked b) r F) (mkFs AtOuter r (F ++ [mkNd c [b]])).

(** ** Encodings *)
(** what is expected of the assumptions that bound an objective, at every point of a run: a solution of the clauses handed to the
    solver that satisfies them is within the bound, and nothing in the proof contradicts them for a solution within the bound *)
Definition enc_works (k0 : chk) (cls : list clause) (r : rst) : Prop :=
  forall c v as_, In c (r_cs r) -> pe_enforce_ub (co_enc c) v = Some as_ ->
    (forall w, sat w cls -> models_handed w (r_p r) -> lits_true w as_ -> icost (co_obj c) w <= v) /\
    (forall a, (forall e, In e (k_all (kof k0 (r_p r))) -> lb_holds a (snd e)) -> icost (co_obj c) (on_solver a) <= v -> lits_true (on_solver a) as_).
Inductive pm_runs (k0 : chk) (n : nat) (cls : list clause) : fstate -> fstate -> Prop :=
| pr_refl : forall s, enc_works k0 cls (f_r s) -> pm_runs k0 n cls s s
| pr_step : forall s1 s2 s3, pm_runs k0 n cls s1 s2 -> pm_step k0 n cls s2 s3 -> enc_works k0 cls (f_r s3) -> pm_runs k0 n cls s1 s3.
(** pminimal.rs 265-268, lowerbounding.rs 305-309: the algorithm returns *)
Definition pm_finished (k0 : chk) (s : fstate) : Prop := f_at s = AtOuter /\ solver_unsat k0 (f_r s) [].
