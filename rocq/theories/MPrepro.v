(** * Model of core/src/prepro.rs and of the [Reindexer] of core/src/types.rs *)
From Coq Require Import List Bool Arith Lia ZArith String Ascii.
From Verif Require Import Base Spec MTypes ApiSpec.
Import ListNotations.

(** ** Parsed instances *)

(** rustsat's [PbConstraint]: upper bound, lower bound or equality over weighted literals *)
Inductive pb_op := PbUb | PbLb | PbEq.
Record pb_constr := mkPb { pb_kind : pb_op; pb_lits : list (lit * nat); pb_bound : Z }.

(** rustsat's [From<Clause> for PbConstraint] (used by [cl.into()], prepro.rs 328, and
    [into_pbs], prepro.rs 106 and 133) *)
Definition pb_of_clause (cl : clause) : pb_constr :=
  mkPb PbLb (map (fun l => (l, 1)) cl) 1.

(** rustsat's [Objective] after [into_soft_cls] (prepro.rs 312): weighted soft clauses and an
    offset *)
Definition soft_obj := (list (clause * nat) * Z)%type.

(** types.rs 822-827 [Parsed]: the result of the (external) parsers *)
Record parsed := mkParsed {
  pa_constrs : list pb_constr;
  pa_objs : list soft_obj;
  pa_vm : var_manager }.

(** Outcome of a preprocessing step: a value, an [Err] or a panic *)
Inductive pres (A : Type) := POk (a : A) | PErr | PPanic.
Arguments POk {A}. Arguments PErr {A}. Arguments PPanic {A}.

(** The external translation of one PB constraint to clauses
    ([rustsat::encodings::pb::default_encode_pb_constraint], prepro.rs 291): clauses and new
    next variable from the current next variable; [None] is [OutOfMemory]. *)
Definition pb_encoder := pb_constr -> nat -> option (list clause * nat).

Fixpoint clause_eqb (c d : clause) : bool :=
  match c, d with
  | [], [] => true
  | a :: c', b :: d' => lit_eqb a b && clause_eqb c' d'
  | _, _ => false
  end.
(** [RsHashMap<Clause, Lit>] as an association list *)
Definition blit_map := list (clause * lit).
Fixpoint blit_get (m : blit_map) (cl : clause) : option lit :=
  match m with
  | [] => None
  | (k, b) :: r => if clause_eqb k cl then Some b else blit_get r cl
  end.

(** What [process_objective] threads: constraints, blocking literals, variable manager *)
Record soft_st := mkSoft {
  ss_constrs : list pb_constr; ss_blits : blit_map; ss_vm : var_manager }.

(** prepro.rs 314-330, the closure over one soft clause.  [None] is the failing
    [debug_assert!] (line 315).  [Clause::add] appends the literal. *)
Definition process_soft (cw : clause * nat) (s : soft_st) : option ((lit * nat) * soft_st) :=
  let (cl, w) := cw in
  match cl with
  | [] => None
  | [l] => Some ((lnot l, w), s)
  | _ =>
      match blit_get (ss_blits s) cl with
      | Some b => Some ((b, w), s)
      | None =>
          let (v, vm) := vm_new_var (ss_vm s) in
          let b := pos v in
          Some ((b, w), mkSoft (ss_constrs s ++ [pb_of_clause (cl ++ [b])])
                               ((cl, b) :: ss_blits s) vm)
      end
  end.
Fixpoint process_softs (cws : list (clause * nat)) (s : soft_st)
  : option (list (lit * nat) * soft_st) :=
  match cws with
  | [] => Some ([], s)
  | cw :: r =>
      match process_soft cw s with
      | None => None
      | Some (lw, s1) =>
          match process_softs r s1 with
          | None => None
          | Some (lws, s2) => Some (lw :: lws, s2)
          end
      end
  end.
(** prepro.rs 305-334 [process_objective] for every objective (243-247).  The result keeps
    the arguments of [Objective::new]; the [Objective]s are [build_objs] of them. *)
Fixpoint process_objectives (os : list soft_obj) (s : soft_st)
  : option (list raw_obj * soft_st) :=
  match os with
  | [] => Some ([], s)
  | o :: r =>
      match process_softs (fst o) s with
      | None => None
      | Some (lws, s1) =>
          match process_objectives r s1 with
          | None => None
          | Some (ros, s2) => Some ((lws, snd o) :: ros, s2)
          end
      end
  end.

(** prepro.rs 276-285, 290-292: encode all constraints, threading the variable manager *)
Fixpoint encode_constrs (pe : pb_encoder) (cs : list pb_constr) (next : nat)
  : option (list clause * nat) :=
  match cs with
  | [] => Some ([], next)
  | c :: r =>
      match pe c next with
      | None => None
      | Some (cls, n1) =>
          match encode_constrs pe r n1 with
          | None => None
          | Some (cls', n2) => Some (cls ++ cls', n2)
          end
      end
  end.

(** prepro.rs 231-303 [to_clausal] without proof logging (the proof does not influence the
    instance; constraint numbering is modelled below).  [Collector] is a plain list of
    clauses. *)
Definition to_clausal (pe : pb_encoder) (p : parsed) : pres inst :=
  match process_objectives (pa_objs p) (mkSoft (pa_constrs p) [] (pa_vm p)) with
  | None => PPanic
  | Some (ros, s) =>
      match encode_constrs pe (ss_constrs s) (vm_next (ss_vm s)) with
      | None => PErr
      | Some (cls, next) =>
          match vm_mark_max_enc (vm_set_next (ss_vm s) next) with
          | None => PPanic
          | Some vm => POk (mkInst cls ros vm)
          end
      end
  end.

(** ** Constraint identifiers of the proof *)

Definition is_eq (c : pb_constr) : bool :=
  match pb_kind c with PbEq => true | _ => false end.
(** prepro.rs 252-258: the number of constraints declared to the proof checker *)
Definition n_constraints (cs : list pb_constr) : nat :=
  fold_left (fun s c => if is_eq c then s + 2 else s + 1) cs 0.
(** prepro.rs 275-285: the identifier passed along with each constraint, and the identifier
    after the last one *)
Fixpoint constr_ids_from (id : nat) (cs : list pb_constr) : list nat * nat :=
  match cs with
  | [] => ([], id)
  | c :: r =>
      let '(ids, last) := constr_ids_from (id + (1 + (if is_eq c then 1 else 0))) r in
      (id :: ids, last)
  end.
Definition constr_ids (cs : list pb_constr) : list nat := fst (constr_ids_from 1 cs).
(** The constraints as given to [init_proof] and to the encoder: prepro.rs 241-247 *)
Definition proof_constrs (p : parsed) : option (list pb_constr) :=
  match process_objectives (pa_objs p) (mkSoft (pa_constrs p) [] (pa_vm p)) with
  | None => None
  | Some (_, s) => Some (ss_constrs s)
  end.

(** ** Reindexing *)

(** types.rs 738-744 [Reindexer]; [in_map] as an association list *)
Record reindexer := mkReidx {
  ri_next : nat; ri_in : list (nat * nat); ri_out : list nat; ri_old_max : nat }.
(** types.rs 747-754 [Reindexer::new] *)
Definition ri_new (old_max : nat) : reindexer := mkReidx 0 [] [] old_max.
Fixpoint ri_get (m : list (nat * nat)) (v : nat) : option nat :=
  match m with
  | [] => None
  | (k, x) :: r => if Nat.eqb k v then Some x else ri_get r v
  end.
(** types.rs 762-771 [Reindexer::reindex] (with [new_var], 781-785) *)
Definition ri_reindex (r : reindexer) (v : nat) : nat * reindexer :=
  match ri_get (ri_in r) v with
  | Some x => (x, r)
  | None =>
      (ri_next r, mkReidx (S (ri_next r)) ((v, ri_next r) :: ri_in r) (ri_out r ++ [v])
                          (ri_old_max r))
  end.
(** types.rs 773-778 [Reindexer::reverse] *)
Definition ri_reverse (r : reindexer) (v : nat) : option nat := nth_error (ri_out r) v.
(** types.rs 787-793 [Reindexer::max_var] *)
Definition ri_max_var (r : reindexer) : option nat :=
  match ri_next r with 0 => None | S n => Some n end.
(** types.rs 781-785 [Reindexer::new_var] *)
Definition ri_new_var (r : reindexer) : nat * reindexer :=
  (ri_next r, mkReidx (S (ri_next r)) (ri_in r) (ri_out r) (ri_old_max r)).
(** types.rs 814-818 [Reindexer::forget_from] *)
Definition ri_forget_from (r : reindexer) (min_var : nat) : reindexer :=
  mkReidx (Nat.min (ri_next r) min_var)
          (filter (fun kv => snd kv <? min_var) (ri_in r))
          (firstn (S min_var) (ri_out r)) (ri_old_max r).

(** rustsat's [ReindexVars::reindex_lit] and [reverse_lit] *)
Definition ri_reindex_lit (r : reindexer) (l : lit) : lit * reindexer :=
  let (v, r') := ri_reindex r (lvar l) in (mkLit v (lneg l), r').
Definition ri_reverse_lit (r : reindexer) (l : lit) : option lit :=
  match ri_reverse r (lvar l) with
  | Some v => Some (mkLit v (lneg l))
  | None => None
  end.

(** prepro.rs 345-349: the literals of one objective *)
Fixpoint ri_wlits (lws : list (lit * nat)) (r : reindexer) : list (lit * nat) * reindexer :=
  match lws with
  | [] => ([], r)
  | (l, w) :: lws' =>
      let '(l', r1) := ri_reindex_lit r l in
      let '(rest, r2) := ri_wlits lws' r1 in
      ((l', w) :: rest, r2)
  end.
(** prepro.rs 344-351: the objectives, as arguments of [Objective::new] *)
Fixpoint ri_objs (os : list objective) (r : reindexer) : list raw_obj * reindexer :=
  match os with
  | [] => ([], r)
  | o :: os' =>
      let '(lws, r1) := ri_wlits (obj_iter o) r in
      let '(rest, r2) := ri_objs os' r1 in
      ((lws, obj_offset o) :: rest, r2)
  end.
(** prepro.rs 353-355: one clause *)
Fixpoint ri_clause (cl : clause) (r : reindexer) : clause * reindexer :=
  match cl with
  | [] => ([], r)
  | l :: cl' =>
      let '(l', r1) := ri_reindex_lit r l in
      let '(rest, r2) := ri_clause cl' r1 in
      (l' :: rest, r2)
  end.
(** prepro.rs 352-356 *)
Fixpoint ri_clauses (cls : list clause) (r : reindexer) : list clause * reindexer :=
  match cls with
  | [] => ([], r)
  | c :: cls' =>
      let '(c', r1) := ri_clause c r in
      let '(rest, r2) := ri_clauses cls' r1 in
      (c' :: rest, r2)
  end.
(** prepro.rs 336-360 [reindexing]; the objectives of the input instance are the [Objective]s
    built from its raw objectives.  [None] is the panic of [max_var().unwrap()] (line 357). *)
Definition reindexing (i : inst) : option (reindexer * inst) :=
  let '(ros, r1) := ri_objs (build_objs 0 (in_objs i)) (ri_new (vm_max_orig (in_vm i))) in
  let '(cls, r2) := ri_clauses (in_cls i) r1 in
  match ri_max_var r2 with
  | None => None
  | Some m =>
      match vm_new m m with
      | None => None
      | Some vm => Some (r2, mkInst cls ros vm)
      end
  end.

(** rustsat's [Assignment::assign_lit]: grows the vector with [DontCare] as needed *)
Fixpoint assign_at (n : nat) (t : tern) (sol : assignment) : assignment :=
  match n, sol with
  | 0, [] => [t]
  | 0, _ :: r => t :: r
  | S n', [] => None :: assign_at n' t []
  | S n', x :: r => x :: assign_at n' t r
  end.
Definition assign_lit (sol : assignment) (l : lit) : assignment :=
  assign_at (lvar l) (Some (negb (lneg l))) sol.
(** [collect::<Assignment>()] *)
Definition collect_lits (ls : list lit) : assignment := fold_left assign_lit ls [].
Fixpoint filter_map {A B} (f : A -> option B) (xs : list A) : list B :=
  match xs with
  | [] => []
  | x :: r => match f x with Some y => y :: filter_map f r | None => filter_map f r end
  end.
(** src/main.rs 279-284: reverse reindexing of one reported solution *)
Definition reverse_sol (r : reindexer) (s : assignment) : assignment :=
  truncate (collect_lits (filter_map (ri_reverse_lit r) (sol_lits s))) (ri_old_max r).

(** ** File formats *)

(** prepro.rs 19-29 [FileFormat] *)
Inductive file_format := FInfer | FDimacs | FOpb.
(** Which parser [parse] calls, or why it fails (prepro.rs 48-53 [Error]) *)
Inductive parse_choice := PcClausal | PcPseudoBoolean | PcUnknownExt (e : string) | PcNoExt.

(** [Path::extension] and [Path::with_extension("")] on the final path component: the part
    after the last dot, if there is a dot that is not the first character and the component is
    not [..].  Directories are not modelled (both functions leave them alone). *)
Fixpoint split_last_dot (s : string) : option (string * string) :=
  match s with
  | EmptyString => None
  | String c r =>
      match split_last_dot r with
      | Some (pre, ext) => Some (String c pre, ext)
      | None => if Ascii.eqb c "." then Some (EmptyString, r) else None
      end
  end.
Definition extension (name : string) : option string :=
  if String.eqb name ".." then None else
  match split_last_dot name with
  | Some (EmptyString, _) => None
  | Some (_, ext) => Some ext
  | None => None
  end.
Definition strip_extension (name : string) : string :=
  if String.eqb name ".." then name else
  match split_last_dot name with
  | Some (EmptyString, _) => name
  | Some (pre, _) => pre
  | None => name
  end.
(** prepro.rs 41-45 [is_one_of!] *)
Definition is_one_of (s : string) (xs : list string) : bool := existsb (String.eqb s) xs.

(** prepro.rs 55-88 [parse]: the choice of parser *)
Definition parse_format (name : string) (ff : file_format) : parse_choice :=
  match ff with
  | FInfer =>
      match extension name with
      | Some ext =>
          let without := strip_extension name in
          match (if is_one_of ext ["gz"; "bz2"; "xz"]%string then extension without
                 else Some ext) with
          | None => PcNoExt
          | Some ext =>
              if is_one_of ext ["mcnf"; "bicnf"; "wcnf"; "cnf"; "dimacs"]%string
              then PcClausal
              else if is_one_of ext ["opb"; "mopb"; "pbmo"]%string
              then PcPseudoBoolean
              else PcUnknownExt ext
          end
      | None => PcNoExt
      end
  | FDimacs => PcClausal
  | FOpb => PcPseudoBoolean
  end.
