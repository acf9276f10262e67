(** * Vocabulary for statements about harmless inprocessing (C87).  Definitions only. *)
From Coq Require Import List Bool Arith ZArith Permutation.
From Verif Require Import Base Spec MTypes MKernel MOll EncSpec TotSpec ApiSpec MPrepro MMaxPre MInpro InproSpec.
Import ListNotations.

(** A database after building some more outputs *)
Inductive grown {I : enc_impl} {SP : enc_spec I} {T : tot_impl I} (TS : tot_spec SP T) (d : ti_db T) : ti_db T -> Prop :=
| grown_refl : grown TS d d
| grown_step d1 id k nv d2 l cl nv' : grown TS d d1 -> tb_int SP T TS d1 id -> k < tb_max SP T TS d1 id ->
    ti_define T d1 id k nv = (d2, l, cl, nv') -> grown TS d d2.

(** Forgetting the clauses of a database keeps the variables: an output that had been built gets
    the same literal when it is built again *)
Definition reset_keeps {I : enc_impl} {SP : enc_spec I} {T : tot_impl I} (TS : tot_spec SP T)
    (re : ti_db T -> ti_db T) : Prop :=
  forall d d1 id k l nv d2 l2 cl nv', tb_out SP T TS d id k = Some l -> grown TS (re d) d1 ->
    ti_define T d1 id k nv = (d2, l2, cl, nv') -> l2 = l.

(** MaxPre changes nothing essential: it keeps the clauses, adds only implied ones over the same
    variables, and returns the same soft clauses in some order *)
Definition gentle (ip : inprocessor) : Prop := forall cls os,
  let out := ip_mp (ip cls os) in
  incl cls (mp_cls out) /\ (forall m, sat m cls -> sat m (mp_cls out)) /\
  incl (cls_vars (mp_cls out)) (cls_vars cls) /\
  Forall2 (fun o o' => Permutation (fst o) (fst o') /\ snd o' = snd o) os (mp_objs out).

(** Core boosting leaves something of every objective *)
Definition all_softs {I} (T : tot_impl I) (E : environ) (re : ti_db T -> ti_db T) (s : st I) : Prop :=
  forall cls os offs, handed T E re s = Some (cls, os, offs) -> Forall (fun o => fst o <> []) os.
