(** * C77: the exit status of the binary

    A user of the binary (a script) expects status 0 to mean that the front was printed.  It
    does not: [main] reports an error of the run on standard error and then returns [Ok]. *)
From Coq Require Import List Bool Arith Lia ZArith.
From Verif Require Import Base Spec MTypes MKernel MPMinimal MLowerBounding MBiOptSat MOll EncSpec TotSpec
  ApiSpec Inst MPrepro MMain MCli MExit ExInst PreSpec PreInst PropPre PropCli PreTop ApiTop Book TotInst.
Import ListNotations.

(** The status in terms of what the user sees *)
Theorem C77_status : forall a w run,
  (forall out, sub_output a w run = Some out <->
     io_head w = true /\ io_front w = true /\ cli_output a run = Some out /\
     exists finished f, run = RFront finished f /\ (finished = true \/ io_err w = true)) /\
  (sub_output a w run <> None -> main_status w run = Some 0) /\
  (main_status w run = Some 101 <-> io_head w = true /\ run = RPanic) /\
  (main_status w run = Some 1 -> io_err w = false /\ sub_output a w run = None) /\
  (forall n, main_status w run = Some n -> n = 0 \/ n = 1 \/ n = 101) /\
  (io_err w = true -> run <> RPanic -> run <> ROutOfFuel -> main_status w run = Some 0).
Proof.
  intros a [h f e] run. split.
  { intros out. unfold sub_output, sub_main. cbn [io_head io_front io_err].
    destruct h; cbn [negb]; [|split; [discriminate|intros (H & _); discriminate]].
    destruct run as [fin fr| | |].
    - destruct fin, f, e; cbn [negb andb orb]; split; intros H;
        try discriminate H;
        try (split; [reflexivity|split; [reflexivity|split; [exact H|]]]; do 2 eexists; split; [reflexivity|auto]);
        destruct H as (_ & H2 & H3 & b & x & H4 & H5); try discriminate H2; try exact H3;
        injection H4 as <- <-; destruct H5; discriminate.
    - destruct e; (split; [discriminate|intros (_ & _ & _ & b & x & H4 & _); discriminate]).
    - split; [discriminate|intros (_ & _ & _ & b & x & H4 & _); discriminate].
    - split; [discriminate|intros (_ & _ & _ & b & x & H4 & _); discriminate]. }
  unfold sub_output, main_status, sub_main. cbn [io_head io_front io_err].
  destruct h, f, e, run as [[]| | |]; cbn;
    (split; [try congruence|split; [split; [intros; try discriminate; auto; try tauto|intros [? ?]; try discriminate; try congruence]|
      split; [intros; try discriminate; auto|split; [intros n Hn; try discriminate; injection Hn as <-; auto|
        intros; try congruence; try discriminate]]]]).
Qed.
Print Assumptions C77_status.

(** On proper input, with a working standard error, and unless a known panic is hit (C57), the
    status is 0: whether or not a front was printed, complete or not *)
Theorem C77_always_zero : forall I (SP : enc_spec I) T (TS : tot_spec SP T) pe a E p w,
  pb_enc_ok pe -> parsed_ok p -> oracle_ok E -> cli_fits a E p -> io_err w = true ->
  ~ (c_reindexing a = true /\ exists i, to_clausal pe p = POk i /\ forall v, ~ occurs i v) ->
  ~ (ca_cb (c_cb a) = true /\ (forall b, ~ p_feasible p b) /\ (c_minimization a = true \/ c_trimming a = true)) ->
  (forall j, solved_inst pe (c_reindexing a) p = Some j -> iter_bound j < ev_fuel E) ->
  main_status w (run_cli T pe a E p) = Some 0.
Proof.
  intros I SP T TS pe a E p w Hpe Hp HO Hc Hw N1 N2 HF.
  pose proof (C57_command_line I SP T TS pe a E p Hpe Hp HO Hc) as M.
  destruct (C77_status a w (run_cli T pe a E p)) as (_ & _ & _ & _ & _ & S).
  apply S; [exact Hw| |]; intros Er; rewrite Er in M.
  - destruct M as [M|M]; auto.
  - destruct M as [(j & Hj & M)|M]; [|auto]. specialize (HF j Hj). lia.
Qed.
Print Assumptions C77_always_zero.

(** A problem with one objective, given to BiOptSat: status 0, an error message, no front *)
Definition io_ok : io := mkIo true true true.
Definition exx_one : parsed := mkParsed (pa_constrs exp_p) (firstn 1 (pa_objs exp_p)) (pa_vm exp_p).
Lemma exx_one_ok : parsed_ok exx_one.
Proof.
  destruct exp_p_ok as [H1 H2 H3 H4]. constructor; auto.
  - intros o cw v Ho. apply H3. cbn in Ho. destruct Ho as [<-|[]]. now left.
  - inversion H4; subst. constructor; [assumption|constructor].
Qed.
Theorem C77_error_refuted : exists a E p, parsed_ok p /\ oracle_ok E /\ (exists b, p_feasible p b) /\
  main_status io_ok (run_cli TI pb_brute a E p) = Some 0 /\
  sub_output a io_ok (run_cli TI pb_brute a E p) = None.
Proof.
  exists (ex_args ABiOptSat false), (env false 200), exx_one. split; [exact exx_one_ok|]. split; [apply brute_ok|].
  split; [exists (fun v => v =? 1); repeat constructor; vm_compute; discriminate|].
  split; vm_compute; reflexivity.
Qed.
Print Assumptions C77_error_refuted.

(** The front cannot be written (the disk is full): status 0, no front *)
Theorem C77_write_refuted : exists a E p, parsed_ok p /\ oracle_ok E /\
  let w := mkIo true false true in
  main_status w (run_cli TI pb_brute a E p) = Some 0 /\ sub_output a w (run_cli TI pb_brute a E p) = None /\
  sub_output a io_ok (run_cli TI pb_brute a E p) <> None.
Proof.
  exists (ex_args APMinimal false), (env false 200), exp_p. split; [exact exp_p_ok|]. split; [apply brute_ok|].
  cbv zeta. split; [vm_compute; reflexivity|]. split; [vm_compute; reflexivity|]. vm_compute. discriminate.
Qed.
Print Assumptions C77_write_refuted.

(** A run stopped by a limit has the status of a finished run and prints a part of the front *)
Definition ex_args_lim (al : alg) (k : nat) : cli_args :=
  mkCliArgs al false true true false false true (mkCbArgs false true true) (mkEnumArgs EaNone 0) false
    (mkLimArgs k 0 0 0) (mkLogArgs 0 false false false false false 0 false false true).
Theorem C77_stopped_refuted : exists a a' E p out out', parsed_ok p /\ oracle_ok E /\
  main_status io_ok (run_cli TI pb_brute a E p) = Some 0 /\
  main_status io_ok (run_cli TI pb_brute a' E p) = Some 0 /\
  sub_output a io_ok (run_cli TI pb_brute a E p) = Some out /\
  sub_output a' io_ok (run_cli TI pb_brute a' E p) = Some out' /\
  length out < length out'.
Proof.
  exists (ex_args_lim APMinimal 1), (ex_args_lim APMinimal 0), (env false 200), exp_p. do 2 eexists.
  split; [exact exp_p_ok|]. split; [apply brute_ok|]. split; [vm_compute; reflexivity|]. split; [vm_compute; reflexivity|].
  split; [vm_compute; reflexivity|]. split; [vm_compute; reflexivity|]. cbn. lia.
Qed.
Print Assumptions C77_stopped_refuted.

(** ** The hypotheses of [C77_always_zero] hold for these runs *)
Example C77_example : cli_fits (ex_args ABiOptSat true) (env false 200) exp_p /\
  (forall j, solved_inst pb_brute true exp_p = Some j -> iter_bound j < 200) /\
  main_status io_ok (run_cli TI pb_brute (ex_args ABiOptSat true) (env false 200) exp_p) = Some 0 /\
  main_status (mkIo true true false) (run_cli TI pb_brute (ex_args ABiOptSat true) (env false 200) exx_one) = Some 1.
Proof.
  split; [apply ex_args_fits|]. split; [|split; vm_compute; reflexivity].
  intros j Hj. vm_compute in Hj. injection Hj as <-. vm_compute. lia.
Qed.
