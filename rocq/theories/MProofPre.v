(** * Model of the translation of the input with proof logging (core/src/prepro.rs, src/main.rs)

    MPrepro.v models [to_clausal] without a proof, MProofs.v the proof of an instance that is already a list of clauses. Here the
    proof starts with the constraints of the parsed problem: every constraint is translated to clauses by a certified encoder, which
    writes to the proof. *)
From Coq Require Import List Bool Arith ZArith.
From Verif Require Import Base Spec MTypes ApiSpec MPrepro VeriPB MProofs.
Import ListNotations.

(** ** The constraints the checker reads *)
(** prepro.rs 260-267: the constraints are dumped to the input file of the checker (or the checker is given the input of
    the user). The checker turns a bound into one constraint and an equality into two, first the lower bound, then the upper bound;
    an upper bound is read with negated coefficients. *)
Definition pb_ge (c : pb_constr) : pconstr :=
  mkLb (map (fun lw => (Z.of_nat (snd lw), axiom (fst lw))) (pb_lits c)) (pb_bound c).
Definition pb_le (c : pb_constr) : pconstr :=
  mkLb (map (fun lw => (- Z.of_nat (snd lw), axiom (fst lw))%Z) (pb_lits c)) (- pb_bound c)%Z.
Definition pb_lbs (c : pb_constr) : list pconstr :=
  match pb_kind c with PbLb => [pb_ge c] | PbUb => [pb_le c] | PbEq => [pb_ge c; pb_le c] end.
(** proofs.rs 127-146 [init_proof]: the checker state after the header *)
Definition init_chk_pb (cs : list pb_constr) (objs : list objective) : chk :=
  mkChk (number 1 (flat_map pb_lbs cs)) [] (S (length (flat_map pb_lbs cs))) (map fst (objectives_as_order objs)) [].
(** prepro.rs 252-258 and 269-273: the proof writer is told the number of constraints *)
Definition init_pst (cs : list pb_constr) : pst := mkPst (S (n_constraints cs)) 0 [] [] [] [].

(** ** The translation *)
(** The external [rustsat::encodings::pb::cert::default_encode_pb_constraint] (prepro.rs 278-283): from the constraint, the id of its
    (first) constraint in the proof, the next variable and the proof it computes the clauses with their ids, the new next variable and
    the new proof; [None] is an error *)
Definition cert_encoder := pb_constr -> nat -> nat -> pst -> option (list (clause * nat) * nat * pst).
(** prepro.rs 275-285 *)
Fixpoint encode_constrs_cert (ce : cert_encoder) (cs : list pb_constr) (id next : nat) (p : pst)
  : option (list (clause * nat) * nat * pst) :=
  match cs with
  | [] => Some ([], next, p)
  | c :: r =>
      match ce c id next p with
      | None => None
      | Some (cls, n1, p1) =>
          match encode_constrs_cert ce r (id + (1 + (if is_eq c then 1 else 0))) n1 p1 with
          | None => None
          | Some (cls', n2, p2) => Some (cls ++ cls', n2, p2)
          end
      end
  end.
(** prepro.rs 231-303 [to_clausal] with proof logging: the instance, the ids of its clauses and the proof *)
Definition to_clausal_cert (ce : cert_encoder) (p : parsed) : pres (inst * list nat * pst) :=
  match process_objectives (pa_objs p) (mkSoft (pa_constrs p) [] (pa_vm p)) with
  | None => PPanic
  | Some (ros, s) =>
      match encode_constrs_cert ce (ss_constrs s) 1 (vm_next (ss_vm s)) (init_pst (ss_constrs s)) with
      | None => PErr
      | Some (cls, next, pr) =>
          match vm_mark_max_enc (vm_set_next (ss_vm s) next) with
          | None => PPanic
          | Some vm => POk (mkInst (map fst cls) ros vm, map snd cls, pr)
          end
      end
  end.
(** main.rs 160-173: with proof logging, reindexing is an error, but only after [to_clausal] has written the files *)
Definition cert_setup (reindex : bool) (ce : cert_encoder) (p : parsed) : pres (inst * list nat * pst) :=
  match to_clausal_cert ce p with
  | POk x => if reindex then PErr else POk x
  | PErr => PErr
  | PPanic => PPanic
  end.

(** proofs.rs 853-889 [Kernel::new_cert]: the clauses are handed to the solver together with their ids *)
Definition load_cert (cls : list clause) (ids : list nat) (p : pst) : pst :=
  fold_left (fun p ci => add_cert (fst ci) (snd ci) p) (combine cls ids) p.
(** algs.rs 694 [yield_solutions]: reported solutions are restricted to the variables of the input *)
Definition reported (n_orig : nat) (nd : nd_point assignment) : nd_point assignment :=
  mkNd (nd_costs nd) (map (fun b => truncate b n_orig) (nd_sols nd)).
