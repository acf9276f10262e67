(** * A concrete instance used to show that hypotheses of the theorems can be met *)
From Coq Require Import List Bool Arith Lia ZArith.
From Verif Require Import Base BaseLemmas Spec MTypes MKernel EncSpec Inst ApiSpec Book.
Import ListNotations.

(** Variables [0 .. 3]; clauses x0|x1, x1|x2, x0|x2|x3; objectives
    x0 + 2 x1 + 2 ~x3   and   ~x0 + ~x1 + x3 - 1.
    Pareto front: (1,1), (3,0), (5,-1). *)
Definition ex_cls : list clause := [[pos 0; pos 1]; [pos 1; pos 2]; [pos 0; pos 2; pos 3]].
Definition ex_o1 : raw_obj := ([(pos 0, 1); (pos 1, 2); (neg 3, 2)], 0%Z).
Definition ex_o2 : raw_obj := ([(neg 0, 1); (neg 1, 1); (pos 3, 1)], (-1)%Z).
Definition ex_vm : var_manager := mkVm 4 3 3.
Definition ex_inst : inst := mkInst ex_cls [ex_o1; ex_o2] ex_vm.
Definition ex_opts (e : enum_opts) : kopts :=
  mkOpts e true true false false false true default_blocking_clause.

Lemma ex_ok : inst_ok ex_inst.
Proof.
  constructor.
  - cbn. lia.
  - cbn. lia.
  - intros v H. cbn in *. lia.
  - intros r v [<-|[<-|[]]] H; cbn in *; lia.
  - constructor; [|constructor; [|constructor]].
    + split; [left; repeat constructor; cbn; intuition discriminate|].
      right. exists (pos 0, 1). split; [now left|discriminate].
    + split; [left; repeat constructor; cbn; intuition discriminate|].
      right. exists (neg 0, 1). split; [now left|discriminate].
  - constructor; [|constructor; [|constructor]]; repeat split; cbn; unfold isize_max, isize_min; lia.
Qed.
Lemma ex_orig : objs_orig ex_inst.
Proof.
  intros r v [<-|[<-|[]]] H; unfold n_orig; cbn in *; lia.
Qed.

(** Objectives over original variables determine the costs *)
Lemma objs_orig_determined i : objs_orig i -> orig_determined i.
Proof.
  intros H a b _ _ Hs _. assert (G : costs (in_objs i) a = costs (in_objs i) b).
  { unfold costs. apply map_ext_in. intros r Hr. unfold obj_value. do 2 f_equal.
    eapply (wsum_agree (fun v => v < n_orig i)); [exact Hs|]. intros v Hv. apply (H r); assumption. }
  rewrite G. clear. unfold weakly_dominates. induction (costs _ _); constructor; auto. lia.
Qed.
Lemma ex_enum e : enum_ok ex_inst (ex_opts e).
Proof.
  unfold enum_ok. destruct e; cbn; auto using ex_orig.
  split; [reflexivity|]. apply objs_orig_determined, ex_orig.
Qed.
Lemma env_calm first fuel : calm (env first fuel).
Proof.
  split; [reflexivity|]. split; [reflexivity|]. intros q. cbn. unfold brute.
  destruct (solve_vars _ _ _); [discriminate|]. destruct (solve_vars _ _ _); discriminate.
Qed.
Lemma lims_none_pos : lims_pos lims_none.
Proof. repeat split; discriminate. Qed.
(** Limits that stop the run early *)
Definition ex_lims : limits := mkLims (Some 1) None None None.
Lemma ex_lims_pos : lims_pos ex_lims.
Proof. repeat split; discriminate. Qed.
