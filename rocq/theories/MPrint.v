(** * Model of the printed text (src/cli.rs 820-837, 968-992, 1022-1036, 1339-1363)

    Without colours (standard output is not a terminal or colours are switched off), when
    [set_color] and [reset] write nothing.  Text is a list of characters.  Integers are written in
    decimal by Rust's [Display] (external), an assignment by rustsat's [Display for Assignment]
    (external): one character per variable. *)
From Coq Require Import List Bool Arith ZArith Ascii String DecimalString Decimal.
From Verif Require Import Base Spec MTypes MKernel MMain MCli.
Import ListNotations.

Definition text := list ascii.
Definition tx (s : string) : text := list_ascii_of_string s.
Definition nl : ascii := ascii_of_nat 10.

(** [Display] of [isize] and [usize] *)
Definition int_text (z : Z) : text := tx (NilZero.string_of_int (Z.to_int z)).

(** rustsat's [Display for TernaryVal] and [Display for Assignment] *)
Definition tern_text (t : tern) : ascii :=
  match t with Some true => "1" | Some false => "0" | None => "_" end%char.
Definition assignment_text (a : assignment) : text := map tern_text a.

(** cli.rs 1349-1363 [VecPrinter::fmt] *)
Fixpoint vec_rest (first : bool) (cs : list Z) : text :=
  match cs with
  | [] => []
  | c :: r => (if first then [] else tx ", ") ++ int_text c ++ vec_rest false r
  end.
Definition vec_text (cs : list Z) : text := tx "(" ++ vec_rest true cs ++ tx ")".

(** cli.rs 1022-1036 [start_block], [end_block] *)
Definition start_block : text := tx ">>>>>" ++ [nl].
Definition end_block : text := tx "<<<<<" ++ [nl].

(** cli.rs 968-992 [print_non_dom]; the arguments are the costs, the number of solutions and the
    solutions that are printed (see [MCli.print_non_dom]) *)
Definition non_dom_text (p : list Z * nat * list assignment) : text :=
  let '(cs, n, sols) := p in
  start_block ++ tx "Non-dominated Point" ++
  tx ": costs: " ++ vec_text cs ++ tx "; n-sols: " ++ int_text (Z.of_nat n) ++ [nl] ++
  List.concat (map (fun sol => tx "v " ++ assignment_text sol ++ [nl]) sols) ++
  end_block.

(** cli.rs 820-837 [print_pareto_front] *)
Definition front_text (print_solutions : bool) (f : front assignment) : text :=
  start_block ++ tx "Discovered Pareto Front" ++ tx ": " ++ [nl] ++
  List.concat (map non_dom_text (print_front print_solutions f)) ++
  end_block.

(** main.rs 276-300 [post_solve]: what is printed of the front *)
Definition cli_text (a : cli_args) (r : main_res) : option text :=
  match r with
  | RFront _ f => Some (front_text (ga_print_solutions (c_log a)) f)
  | _ => None
  end.
