(** * What the statements about runs with proof after core boosting rely on

    Core boosting (coreboosting.rs 136-229, pminimal.rs 362-394) as a sequence of events before the first
    candidate is blocked: lines of the solver and of the totalizers ([RunSpec.run_step] without blocking), and
    new lower bounds of objectives together with the id of the reformulation. The lines written by [oll]
    itself ([MReform]) are shown to be such events (C72_oll). *)
From Coq Require Import List Arith ZArith Bool.
From Verif Require Import Spec Base MTypes MKernel MPMinimal MPrepro MOll Sem VeriPB MProofs ProofRun ProofCut ProofCert TracerThm MReform ReformSpec MProofAlg ReifSpec BlockSpec RunSpec.
Import ListNotations.

(** the objective with the lower bound and the reformulation found by core boosting (coreboosting.rs 219-220
    [set_reform_id], [set_lower_bound]) *)
Definition boosted (lb : nat) (id : option nat) (c : cobj) : cobj := mkCobj (co_enc c) (obj_set_lb lb (co_obj c)) id (co_cost c).

Inductive boost_step (k0 : chk) (n : nat) (sol : assignment -> Prop) : rst -> rst -> Prop :=
(** a line of the solver or of a totalizer *)
| bo_line : forall r r', run_step k0 n sol r r' -> r_done r' = r_done r -> boost_step k0 n sol r r'
(** the lower bound and the reformulation of the objective [i] are stored; the proof says what they mean *)
| bo_reform : forall cs i c lb id nv p L,
    nth_error cs i = Some c -> enc_fine (rm_ids L (k_all (kof k0 p))) (set_nth i (boosted lb id c) cs) ->
    boost_step k0 n sol (mkRst cs nv p L []) (mkRst (set_nth i (boosted lb id c) cs) nv p L []).
Inductive boosts (k0 : chk) (n : nat) (sol : assignment -> Prop) : rst -> rst -> Prop :=
| bst_refl : forall r, boosts k0 n sol r r
| bst_more : forall r1 r2 r3, boosts k0 n sol r1 r2 -> boost_step k0 n sol r2 r3 -> boosts k0 n sol r1 r3.

(** ** The lines of [oll] *)
(** the ids of the constraints written from [p] to [p'] *)
Definition new_ids (p p' : pst) : list nat := rev (seq (ps_next p) (ps_next p' - ps_next p)).
(** the state after the lines written from [p] to [p']; their constraints are only needed by [oll] and may be deleted *)
Definition after_lines (p p' : pst) (r : rst) : rst :=
  mkRst (r_cs r) (r_nv r) p' (new_ids p p' ++ r_del r) (r_done r).
(** the events of [oll] (without core exhaustion) from the state [r] of the run to the state [r']: cores are clauses of the solver,
    and what else is written in between are events of core boosting *)
Fixpoint oll_boosts (k0 : chk) (n : nat) (sol : assignment -> Prop) (es : list revent) (s : MReform.rst) (r r' : rst) : Prop :=
  match es with
  | [] => r' = r
  | e :: es =>
      match run_revent false ti_if e s with
      | None => False
      | Some s1 =>
          match e with
          | ROther p => exists r1, boosts k0 n sol r r1 /\ r_p r1 = p /\ oll_boosts k0 n sol es s1 r1 r'
          | RCore _ id => In id (r_del r) /\ oll_boosts k0 n sol es s1 (after_lines (rs_p s) (rs_p s1) r) r'
          | RReform _ _ => oll_boosts k0 n sol es s1 (after_lines (rs_p s) (rs_p s1) r) r'
          end
      end
  end.
(** the encoding of an objective has not been built yet *)
Definition unbuilt (e : penc) : Prop := pe_buf_empty e = true /\ pe_nout e = 0 /\ forall v, pe_details e v = None.
