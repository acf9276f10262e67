(** * Model of preprocessing with MaxPre (core/src/prepro.rs 141-202, src/main.rs 146-159,
    289-296; feature [maxpre])

    MaxPre itself is external.  One run of it is a function from clauses and objectives to new
    clauses, new objectives and the reconstruction of solutions; the techniques string and the
    reindexing flag are fixed in that function. *)
From Coq Require Import List Bool Arith Lia ZArith.
From Verif Require Import Base Spec MTypes MKernel MOll ApiSpec MPrepro MMain.
Import ListNotations.

Record mp_out := mkMp {
  mp_cls : list clause;
  mp_objs : list soft_obj;
  mp_rec : assignment -> assignment }.
Definition maxpre := list clause -> list soft_obj -> mp_out.

(** prepro.rs 181-184: the closure over one soft clause; [None] is the failing [debug_assert_eq!]
    (an index out of bounds for the empty clause in release builds) *)
Definition mp_soft (cw : clause * nat) : option (lit * nat) :=
  match fst cw with [l] => Some (lnot l, snd cw) | _ => None end.
Fixpoint mp_softs (cws : list (clause * nat)) : option (list (lit * nat)) :=
  match cws with
  | [] => Some []
  | cw :: r =>
      match mp_soft cw, mp_softs r with Some lw, Some lws => Some (lw :: lws) | _, _ => None end
  end.
(** prepro.rs 176-189: the arguments of [Objective::new] *)
Fixpoint mp_raw (os : list soft_obj) : option (list raw_obj) :=
  match os with
  | [] => Some []
  | o :: r =>
      match mp_softs (fst o), mp_raw r with Some lws, Some ros => Some ((lws, snd o) :: ros) | _, _ => None end
  end.
(** prepro.rs 190-192: the maximum variable of the clauses (of the clauses only) *)
Definition mp_max_var (cls : list clause) : nat :=
  fold_left (fun m cl => fold_left (fun m l => Nat.max m (lvar l)) cl m) cls 0.

(** prepro.rs 155-202 [max_pre] with 141-153 [constraints_to_clausal] *)
Definition max_pre (pe : pb_encoder) (mp : maxpre) (p : parsed) : pres ((assignment -> assignment) * inst) :=
  match encode_constrs pe (pa_constrs p) (vm_next (pa_vm p)) with
  | None => PErr
  | Some (cnf, _) =>
      let out := mp cnf (pa_objs p) in
      match mp_raw (mp_objs out), vm_new (mp_max_var (mp_cls out)) (mp_max_var (mp_cls out)) with
      | Some ros, Some vm => POk (mp_rec out, mkInst (mp_cls out) ros vm)
      | _, _ => PPanic
      end
  end.

(** main.rs 289-296: reconstruction of the solutions, after reversing the reindexing *)
Definition reconstructed (rec : assignment -> assignment) (x : main_res) : main_res :=
  match x with RFront b f => RFront b (front_convert rec f) | _ => x end.

(** main.rs 138-205 [sub_main] with preprocessing, from the parsed instance on *)
Definition run_main_mp {I} (T : tot_impl I) (pe : pb_encoder) (mp : maxpre) (reindex : bool) (al : alg)
    (o : kopts) (cb : option cb_opts) (E : environ) (l : limits) (p : parsed) : main_res :=
  match max_pre pe mp p with
  | PErr => RErr
  | PPanic => RPanic
  | POk (rec, i) => reconstructed rec (run_inst T reindex al o cb E l i)
  end.
