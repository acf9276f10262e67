(** * Model of the main loop of BiOptSat with proof logging (bioptsat.rs, algs.rs)

    MBiOptSat.v models the algorithm without the proof. Here its loop is modelled together with the proof, without solution
    enumeration, lookup and base assumptions (as called in bioptsat.rs 263-271), as a transition system over the states of the proof
    of BosRunSpec.v. What the solver and the encodings write in between is nondeterministic, and so are the answers of the solver
    ([MProofRun.solver_sat], [MProofRun.solver_unsat]). Limits, interrupts and logging are not modelled, nor is the feature
    coarse-convergence. *)
From Coq Require Import List Arith ZArith Bool.
From Verif Require Import Spec Base MTypes MKernel MPMinimal MPrepro Sem VeriPB MProofs ProofRun ReformSpec MProofAlg RunSpec BosRunSpec MProofRun.
Import ListNotations.

(** before a call to the solver without assumptions (bioptsat.rs 385 and 765), in linear search on the increasing objective with the last
    solution (398-404), in linear search on the decreasing objective with the value of the increasing objective and the last solution
    (424-432), after the solution has been yielded (algs.rs 786), or after the last iteration (bioptsat.rs 496) *)
Inductive bplace := BoSearch | BoInc (w : assignment) | BoDec (inc : nat) (w : assignment) | BoYielded (b : assignment) | BoDone.
Record bfstate := mkBf { bf_at : bplace; bf_s : brst; bf_front : list (nd_point assignment) }.
(** the internal cost of a solution *)
Definition cost_of (c : cobj) (w : assignment) : nat := icost (co_obj c) (asg_of w).

Inductive bf_step (k0 : chk) (n : nat) (cls : list clause) (dec_lb : nat) : bfstate -> bfstate -> Prop :=
(** lines of the solver and the encodings, and the lines that certify the result of a linear search (algs.rs 889-897) *)
| bf_work : forall at_ s s' F, bos_event k0 n (inst_sol n cls) s s' -> r_done (br_r s') = r_done (br_r s) ->
    bf_step k0 n cls dec_lb (mkBf at_ s F) (mkBf at_ s' F)
(** bioptsat.rs 385-391 and 765-771 *)
| bf_found : forall s F w, solver_sat n cls (br_r s) w -> bf_step k0 n cls dec_lb (mkBf BoSearch s F) (mkBf (BoInc w) s F)
(** algs.rs 850-876 for the increasing objective: a solution with a smaller cost *)
| bf_inc : forall s F w c0 c1 A w', r_cs (br_r s) = [c0; c1] -> br_lb s < cost_of c0 w ->
    pe_enforce_ub (co_enc c0) (cost_of c0 w - 1) = Some A -> solver_sat n cls (br_r s) w' -> lits_true (asg_of w') A ->
    bf_step k0 n cls dec_lb (mkBf (BoInc w) s F) (mkBf (BoInc w') s F)
(** algs.rs 850, 872 and 881-901: the lower bound is reached, or there is no such solution *)
| bf_inc_done : forall s F w c0 c1, r_cs (br_r s) = [c0; c1] ->
    cost_of c0 w <= br_lb s \/ (exists A, pe_enforce_ub (co_enc c0) (cost_of c0 w - 1) = Some A /\ solver_unsat k0 (br_r s) A) ->
    bf_step k0 n cls dec_lb (mkBf (BoInc w) s F) (mkBf (BoDec (cost_of c0 w) w) s F)
(** algs.rs 850-876 for the decreasing objective, under the assumptions of bioptsat.rs 420-422; these are not recomputed, but the
    encoding of the increasing objective does not change during this search *)
| bf_dec : forall s F inc w c0 c1 A B w', r_cs (br_r s) = [c0; c1] -> dec_lb < cost_of c1 w ->
    pe_enforce_ub (co_enc c0) inc = Some A -> pe_enforce_ub (co_enc c1) (cost_of c1 w - 1) = Some B ->
    solver_sat n cls (br_r s) w' -> lits_true (asg_of w') (A ++ B) ->
    bf_step k0 n cls dec_lb (mkBf (BoDec inc w) s F) (mkBf (BoDec inc w') s F)
(** algs.rs 850, 872, 881-901 and 775-787: the lower bound is reached, or there is no such solution; the solution is yielded *)
| bf_yield : forall s F inc w c0 c1 c, r_cs (br_r s) = [c0; c1] ->
    cost_of c1 w <= dec_lb \/ (exists A B, pe_enforce_ub (co_enc c0) inc = Some A /\ pe_enforce_ub (co_enc c1) (cost_of c1 w - 1) = Some B /\
      solver_unsat k0 (br_r s) (A ++ B)) ->
    externalize_all [co_obj c0; co_obj c1] [cost_of c0 w; cost_of c1 w] = Some c ->
    bf_step k0 n cls dec_lb (mkBf (BoDec inc w) s F) (mkBf (BoYielded (truncate w n)) s (F ++ [mkNd c [truncate w n]]))
(** bioptsat.rs 498-764 *)
| bf_iterate : forall s s' F b, bos_event k0 n (inst_sol n cls) s s' -> r_done (br_r s') = b :: r_done (br_r s) -> br_end s' = None ->
    bf_step k0 n cls dec_lb (mkBf (BoYielded b) s F) (mkBf BoSearch s' F)
(** bioptsat.rs 436-497 *)
| bf_finish : forall s s' F b, bos_event k0 n (inst_sol n cls) s s' -> r_done (br_r s') = b :: r_done (br_r s) -> br_end s' <> None ->
    bf_step k0 n cls dec_lb (mkBf (BoYielded b) s F) (mkBf BoDone s' F).
(** the assumptions of the encodings do what they are for at every point *)
Inductive bf_runs (k0 : chk) (n : nat) (cls : list clause) (dec_lb : nat) : bfstate -> bfstate -> Prop :=
| bfr_refl : forall s, enc_works k0 cls (br_r (bf_s s)) -> bf_runs k0 n cls dec_lb s s
| bfr_step : forall s1 s2 s3, bf_runs k0 n cls dec_lb s1 s2 -> bf_step k0 n cls dec_lb s2 s3 -> enc_works k0 cls (br_r (bf_s s3)) -> bf_runs k0 n cls dec_lb s1 s3.
(** bioptsat.rs 386-388, 496 and 772-774: the algorithm returns *)
Definition bf_finished (k0 : chk) (s : bfstate) : Prop := bf_at s = BoDone \/ bf_at s = BoSearch /\ solver_unsat k0 (br_r (bf_s s)) [].
