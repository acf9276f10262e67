(** * Model of the command-line pipeline (src/main.rs), without proof logging *)
From Coq Require Import List Bool Arith Lia ZArith.
From Verif Require Import Base Spec MTypes MKernel MPMinimal MLowerBounding MBiOptSat MOll ApiSpec MPrepro.
Import ListNotations.

(** What a run ends with: the printed Pareto front (with [true] if [solve] returned [Done],
    [false] if it was terminated early), an error message, or a panic.  [ROutOfFuel] only
    exists in the model. *)
Inductive main_res :=
| RFront (finished : bool) (f : front assignment)
| RErr
| RPanic
| ROutOfFuel.

(** main.rs 276-287 [post_solve]: the front that is printed *)
Definition post_solve (r : option reindexer) (f : front assignment) : front assignment :=
  match r with Some r => front_convert (reverse_sol r) f | None => f end.

(** main.rs 164-173: the optional reindexing step; [None] is the panic of [reindexing] *)
Definition maybe_reindex (reindex : bool) (i : inst) : option (option reindexer * inst) :=
  if reindex then
    match reindexing i with Some (r, j) => Some (Some r, j) | None => None end
  else Some (None, i).

(** main.rs 318-327 [handle_termination] together with what [run!] (39-65) does next: go on
    with the value, print the front of a run that was terminated early, or give up *)
Definition handle {I A} (r : option reindexer) (x : res A * st I) (k : A -> st I -> main_res) : main_res :=
  match x with
  | (Done a, s) => k a s
  | (Exit (ETerm _), s) => RFront false (post_solve r (s_front s))
  | (Exit (EErr _), _) => RErr
  | (Exit EPanic, _) => RPanic
  | (Exit ENoFuel, _) => ROutOfFuel
  end.

(** main.rs 39-65 [run!] without proof logging, after [setup_alg]: optional core boosting, then
    [solve] unless core boosting found the instance unsatisfiable, then [post_solve] *)
Definition run_alg {I} (T : tot_impl I) (al : alg) (cb : option cb_opts) (E : environ) (l : limits)
    (r : option reindexer) (s : st I) : main_res :=
  let solve s :=
    handle r (alg_solve al E l s) (fun _ s => RFront true (post_solve r (s_front s))) in
  match cb with
  | None => solve s
  | Some opts =>
      handle r (alg_core_boost T E opts s) (fun (b : bool) s =>
        if b then solve s else RFront true (post_solve r (s_front s)))
  end.

(** main.rs 163-205 [sub_main] from the clausal instance on, 207-232 [setup_alg].  Printing
    itself is not modelled. *)
Definition run_inst {I} (T : tot_impl I) (reindex : bool) (al : alg) (o : kopts)
    (cb : option cb_opts) (E : environ) (l : limits) (i : inst) : main_res :=
  match maybe_reindex reindex i with
  | None => RPanic
  | Some (r, j) =>
      if (match al with ABiOptSat => negb (Nat.eqb (length (in_objs j)) 2) | _ => false end)
      then RErr
      else
        match alg_new (I := I) al j o with
        | None => RPanic
        | Some s => run_alg T al cb E l r (snd (attach_logger s))
        end
  end.

(** main.rs 138-162 [sub_main] from the parsed instance on, without MaxPre *)
Definition run_main {I} (T : tot_impl I) (pe : pb_encoder) (reindex : bool) (al : alg) (o : kopts)
    (cb : option cb_opts) (E : environ) (l : limits) (p : parsed) : main_res :=
  match to_clausal pe p with
  | PErr => RErr
  | PPanic => RPanic
  | POk i => run_inst T reindex al o cb E l i
  end.
