(** * Model of core/src/termination.rs: early termination and the [?] operator *)
From Coq Require Import List.
From Verif Require Import Base MTypes MKernel.
Import ListNotations.

(** termination.rs 47-53 [MaybeTerminated] *)
Inductive maybe_term (A : Type) := MtDone (a : A) | MtTerminated (t : termination).
Arguments MtDone {A}. Arguments MtTerminated {A}.
(** termination.rs 93-100 [MaybeTerminatedError] *)
Inductive maybe_term_err (A : Type) :=
| MteDone (a : A) | MteTerminated (t : termination) | MteError (e : error).
Arguments MteDone {A}. Arguments MteTerminated {A}. Arguments MteError {A}.
(** [std::result::Result] with [anyhow::Error] *)
Inductive result (A : Type) := ROk (a : A) | RError (e : error).
Arguments ROk {A}. Arguments RError {A}.
(** [std::ops::ControlFlow] *)
Inductive control_flow (B C : Type) := Continue (c : C) | Break (b : B).
Arguments Continue {B C}. Arguments Break {B C}.

(** ** [Try]: [from_output] and [branch] *)

(** termination.rs 70-72, 139-141 *)
Definition mt_from_output {A} (a : A) : maybe_term A := MtDone a.
Definition mte_from_output {A} (a : A) : maybe_term_err A := MteDone a.
(** termination.rs 74-81 *)
Definition mt_branch {A} (m : maybe_term A) : control_flow (maybe_term Empty_set) A :=
  match m with
  | MtDone a => Continue a
  | MtTerminated t => Break (MtTerminated t)
  end.
(** termination.rs 143-153 *)
Definition mte_branch {A} (m : maybe_term_err A) : control_flow (maybe_term_err Empty_set) A :=
  match m with
  | MteDone a => Continue a
  | MteTerminated t => Break (MteTerminated t)
  | MteError e => Break (MteError e)
  end.
(** [Try for Result] of the standard library *)
Definition res_branch {A} (m : result A) : control_flow (result Empty_set) A :=
  match m with ROk a => Continue a | RError e => Break (RError e) end.

(** ** [FromResidual] *)

(** termination.rs 84-89 *)
Definition mt_from_mt {A} (r : maybe_term Empty_set) : maybe_term A :=
  match r with MtDone e => match e with end | MtTerminated t => MtTerminated t end.
(** termination.rs 156-165 *)
Definition mte_from_mte {A} (r : maybe_term_err Empty_set) : maybe_term_err A :=
  match r with
  | MteDone e => match e with end
  | MteTerminated t => MteTerminated t
  | MteError e => MteError e
  end.
(** termination.rs 167-174 *)
Definition mte_from_mt {A} (r : maybe_term Empty_set) : maybe_term_err A :=
  match r with MtDone e => match e with end | MtTerminated t => MteTerminated t end.
(** termination.rs 176-184 *)
Definition mte_from_res {A} (r : result Empty_set) : maybe_term_err A :=
  match r with ROk e => match e with end | RError e => MteError e end.

(** ** Conversions without [?] *)

(** termination.rs 117-124 [From<MaybeTerminated>] *)
Definition mte_of_mt {A} (m : maybe_term A) : maybe_term_err A :=
  match m with MtDone a => MteDone a | MtTerminated t => MteTerminated t end.
(** termination.rs 126-133 [From<anyhow::Result>] *)
Definition mte_of_res {A} (m : result A) : maybe_term_err A :=
  match m with ROk a => MteDone a | RError e => MteError e end.
(** termination.rs 55-64, 102-114 [unwrap]; [None] is the panic *)
Definition mt_unwrap {A} (m : maybe_term A) : option A :=
  match m with MtDone a => Some a | MtTerminated _ => None end.
Definition mte_unwrap {A} (m : maybe_term_err A) : option A :=
  match m with MteDone a => Some a | _ => None end.

(** ** Function bodies made of statements with [?]

    A statement is an effect on some state (the solver, a file, ..) with one of the three
    outcome types; values it computes are kept in that state. *)
Inductive stmt (S : Type) :=
| StMt (c : S -> maybe_term unit * S)        (* c()?; with [MaybeTerminated] *)
| StMte (c : S -> maybe_term_err unit * S)   (* c()?; with [MaybeTerminatedError] *)
| StRes (c : S -> result unit * S)           (* c()?; with [anyhow::Result] *)
| StEnsure (c : S -> bool) (e : error).      (* ensure!(c, e), termination.rs 187-203 *)
Arguments StMt {S}. Arguments StMte {S}. Arguments StRes {S}. Arguments StEnsure {S}.

(** A function returning [MaybeTerminatedError]: the statements one after the other, each
    desugared as [match branch(x) { Continue(v) => v, Break(r) => return from_residual(r) }],
    ending with [Done(value)] *)
Fixpoint run_body {S R} (ss : list (stmt S)) (value : S -> R) (s : S) : maybe_term_err R * S :=
  match ss with
  | [] => (mte_from_output (value s), s)
  | StMt c :: r =>
      let '(m, s') := c s in
      match mt_branch m with
      | Continue _ => run_body r value s'
      | Break res => (mte_from_mt res, s')
      end
  | StMte c :: r =>
      let '(m, s') := c s in
      match mte_branch m with
      | Continue _ => run_body r value s'
      | Break res => (mte_from_mte res, s')
      end
  | StRes c :: r =>
      let '(m, s') := c s in
      match res_branch m with
      | Continue _ => run_body r value s'
      | Break res => (mte_from_res res, s')
      end
  | StEnsure c e :: r => if negb (c s) then (MteError e, s) else run_body r value s
  end.

(** A function returning [MaybeTerminated]: all statements have that type *)
Fixpoint run_body_mt {S R} (ss : list (S -> maybe_term unit * S)) (value : S -> R) (s : S)
  : maybe_term R * S :=
  match ss with
  | [] => (mt_from_output (value s), s)
  | c :: r =>
      let '(m, s') := c s in
      match mt_branch m with
      | Continue _ => run_body_mt r value s'
      | Break res => (mt_from_mt res, s')
      end
  end.
