(** * A reader for the printed front (C86).  Definitions only.

    Written from the format, independently of the printer: lines; a block starts with [>>>>>] and
    ends with [<<<<<]; the line of a point has its costs in parentheses, separated by commas, and
    the number of solutions; lines that start with [v ] are solutions. *)
From Coq Require Import List Bool Arith ZArith Ascii String DecimalString Decimal.
From Verif Require Import Base MTypes.
Import ListNotations.

Definition chars := list ascii.
Definition ch (s : string) : chars := list_ascii_of_string s.
Definition same (a b : chars) : bool := if list_eq_dec ascii_dec a b then true else false.

(** The parts between the characters [c] *)
Fixpoint split_at (c : ascii) (s : chars) : list chars :=
  match s with
  | [] => [[]]
  | x :: r =>
      if Ascii.eqb x c then [] :: split_at c r
      else match split_at c r with [] => [[x]] | p :: ps => (x :: p) :: ps end
  end.
(** The rest of a text that starts with [p] *)
Fixpoint after (p s : chars) : option chars :=
  match p, s with
  | [], _ => Some s
  | x :: p', y :: s' => if Ascii.eqb x y then after p' s' else None
  | _, _ => None
  end.
Fixpoint all_some {A} (l : list (option A)) : option (list A) :=
  match l with
  | [] => Some []
  | Some x :: r => option_map (cons x) (all_some r)
  | None :: _ => None
  end.
Definition skip_space (s : chars) : chars := match s with " "%char :: r => r | _ => s end.

Definition read_int (s : chars) : option Z :=
  option_map Z.of_int (NilZero.int_of_string (string_of_list_ascii s)).
Definition read_vec (s : chars) : option (list Z) :=
  match s with [] => Some [] | _ => all_some (map (fun t => read_int (skip_space t)) (split_at "," s)) end.
Definition read_val (c : ascii) : option tern :=
  if Ascii.eqb c "1" then Some (Some true)
  else if Ascii.eqb c "0" then Some (Some false)
  else if Ascii.eqb c "_" then Some None else None.
Definition read_sol (s : chars) : option assignment := all_some (map read_val s).

(** [Non-dominated Point: costs: (1, -2); n-sols: 3] *)
Definition read_point (s : chars) : option (list Z * nat) :=
  match after (ch "Non-dominated Point: costs: (") s with
  | None => None
  | Some r =>
      match split_at ")" r with
      | [cs; n] =>
          match read_vec cs, after (ch "; n-sols: ") n with
          | Some v, Some m => option_map (fun z => (v, Z.to_nat z)) (read_int m)
          | _, _ => None
          end
      | _ => None
      end
  end.

Definition point := (list Z * nat * list assignment)%type.
(** The points of a front, line by line; [cur] is the point that is being read, [hd] tells that
    the line with its costs comes next *)
Fixpoint read_lines (hd : bool) (cur : option point) (ls : list chars) : option (list point) :=
  match ls with
  | [] => None
  | l :: r =>
      match hd, cur with
      | true, _ =>
          match read_point l with Some (v, n) => read_lines false (Some (v, n, [])) r | None => None end
      | false, None =>
          if same l (ch ">>>>>") then read_lines true None r
          else if same l (ch "<<<<<") then match r with [[]] => Some [] | _ => None end
          else None
      | false, Some (v, n, sols) =>
          if same l (ch "<<<<<") then option_map (cons (v, n, sols)) (read_lines false None r)
          else
            match after (ch "v ") l with
            | Some s =>
                match read_sol s with Some a => read_lines false (Some (v, n, sols ++ [a])) r | None => None end
            | None => None
            end
      end
  end.
Definition read_front (s : chars) : option (list point) :=
  match split_at (ascii_of_nat 10) s with
  | a :: b :: r =>
      if same a (ch ">>>>>") && same b (ch "Discovered Pareto Front: ") then read_lines false None r else None
  | _ => None
  end.
