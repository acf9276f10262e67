(** * Well-nested routine events (specification) *)
From Coq Require Import List.
From Verif Require Import Base MTypes MKernel.
Import ListNotations.

(** Number of routines open after the given calls to a logger (newest first); [None] if a
    routine was ended while none was open.  A stack of open routines, as kept by
    src/cli.rs 1167-1199, pops without failure iff this is not [None]. *)
Fixpoint open_routines (evs : list event) : option nat :=
  match evs with
  | [] => Some 0
  | e :: older =>
      match open_routines older with
      | None => None
      | Some d =>
          match e with
          | EvStart _ => Some (S d)
          | EvEnd => match d with 0 => None | S d' => Some d' end
          | _ => Some d
          end
      end
  end.
