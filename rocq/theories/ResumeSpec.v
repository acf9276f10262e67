(** * Specification: histories in which every call can be continued *)
From Coq Require Import List.
From Verif Require Import Base MTypes MKernel ApiSpec.
Import ListNotations.

(** A call that ran to completion, or that was stopped by the limit on reported points or on
    solutions *)
Definition stopped_at_point (r : res unit) : Prop :=
  match r with
  | Done _ => True
  | Exit (ETerm PPLimit) | Exit (ETerm SolsLimit) => True
  | _ => False
  end.
(** Every call of [solve] in the history [h], which starts in state [s], ended like this *)
Definition resumable {I} (al : alg) (h : list step) (s : st I) : Prop :=
  forall h1 E l h2, h = h1 ++ Solve E l :: h2 -> stopped_at_point (fst (alg_solve al E l (run al h1 s))).
