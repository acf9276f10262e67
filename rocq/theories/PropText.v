(** * The printed front can be read back (C86) *)
From Coq Require Import DecimalString Decimal List Bool Arith Lia ZArith Ascii String.
From Verif Require Import Base BaseLemmas Spec MTypes MKernel MOll EncSpec TotSpec ApiSpec Inst ExInst MPrepro MMain
  PreSpec LogSpec CbSpec MTerm MCli CliSpec PreInst TotInst MPrint TextSpec TextThm.
From Verif Require PropCli.
Import ListNotations.

(** The reader (TextSpec.v) gets from the text, for every point in order, its costs, the number of
    its solutions and the solutions that were to be printed. *)
Theorem C86_read_back : forall print_solutions (f : front assignment),
  read_front (front_text print_solutions f) =
  Some (map (fun p => (nd_costs p, List.length (nd_sols p), if print_solutions then nd_sols p else [])) f).
Proof. exact read_back. Qed.
Print Assumptions C86_read_back.

(** Different fronts print differently: the text determines the costs, the numbers of solutions
    and the solutions if they are printed. *)
Theorem C86_unambiguous : forall ps ps' (f g : front assignment),
  front_text ps f = front_text ps' g ->
  map (fun p => (nd_costs p, List.length (nd_sols p))) f = map (fun p => (nd_costs p, List.length (nd_sols p))) g /\
  (ps = true -> ps' = true -> map nd_sols f = map nd_sols g).
Proof.
  intros ps ps' f g H. apply (f_equal read_front) in H. rewrite !C86_read_back in H. injection H as H.
  split.
  - apply (f_equal (map fst)) in H. rewrite !map_map in H. exact H.
  - intros -> ->. apply (f_equal (map snd)) in H. rewrite !map_map in H. exact H.
Qed.
Print Assumptions C86_unambiguous.

(** The text of a run of the command line, read back: the costs are points of the Pareto front of
    the problem that was parsed, each once; all of them if the run was not stopped early; the
    solutions have these costs. *)
Theorem C86_command_line : forall I (SP : enc_spec I) T (TS : tot_spec SP T) pe a E p t,
  pb_enc_ok pe -> parsed_ok p -> oracle_ok E -> PropCli.cli_fits a E p ->
  cli_text a (run_cli T pe a E p) = Some t ->
  exists out, read_front t = Some out /\
    let cs := map (fun x => fst (fst x)) out in
    NoDup cs /\ (forall c, In c cs -> p_optimal p c) /\
    ((exists f, run_cli T pe a E p = RFront true f) -> forall c, p_optimal p c -> In c cs) /\
    (forall c n sols, In (c, n, sols) out -> 0 < n /\
       (ga_print_solutions (c_log a) = true -> List.length sols = n /\
          forall sol b, In sol sols -> extends b sol -> p_feasible p b /\ p_costs p b = c) /\
       (ga_print_solutions (c_log a) = false -> sols = [])).
Proof.
  intros I SP T TS pe a E p t Hpe Hp HO HF Ht.
  pose proof (PropCli.C57_command_line I SP T TS pe a E p Hpe Hp HO HF) as G.
  destruct (run_cli T pe a E p) as [fin f| | |] eqn:er; cbn [cli_text] in Ht; try discriminate Ht.
  injection Ht as <-. destruct G as (out & G1 & G2 & G3 & G4 & G5).
  exists out. cbn [cli_output] in G1. rewrite read_back. split; [exact G1|]. cbv zeta.
  split; [exact G2|]. split; [exact G3|]. split; [|exact G5]. intros (f' & H). apply G4. congruence.
Qed.
Print Assumptions C86_command_line.

(** ** Examples *)
Definition tq_f : front assignment :=
  [mkNd [0; -12]%Z [[Some true; None; Some false]; []]; mkNd [105]%Z []; mkNd [] [[None]]].
Definition show (t : text) : string := string_of_list_ascii t.
Definition lines (l : list string) : string := show (List.concat (map (fun s => tx s ++ [nl]) l)).
Example C86_example : map (fun b => show (front_text b tq_f)) [true; false] =
  [lines [">>>>>"; "Discovered Pareto Front: ";
     ">>>>>"; "Non-dominated Point: costs: (0, -12); n-sols: 2"; "v 1_0"; "v "; "<<<<<";
     ">>>>>"; "Non-dominated Point: costs: (105); n-sols: 0"; "<<<<<";
     ">>>>>"; "Non-dominated Point: costs: (); n-sols: 1"; "v _"; "<<<<<"; "<<<<<"];
   lines [">>>>>"; "Discovered Pareto Front: ";
     ">>>>>"; "Non-dominated Point: costs: (0, -12); n-sols: 2"; "<<<<<";
     ">>>>>"; "Non-dominated Point: costs: (105); n-sols: 0"; "<<<<<";
     ">>>>>"; "Non-dominated Point: costs: (); n-sols: 1"; "<<<<<"; "<<<<<"]]%string.
Proof. vm_compute. reflexivity. Qed.
Example C86_example_reader : map (fun l => read_front (ch (lines l)))
  [[">>>>>"; "Discovered Pareto Front: "; "<<<<<"];
   [">>>>>"; "Discovered Pareto Front: "; ">>>>>"; "Non-dominated Point: costs: (3,4); n-sols: 0"; "<<<<<"; "<<<<<"];
   [">>>>>"; "Discovered Pareto Front: "; ">>>>>"; "Non-dominated Point: costs: (3); n-sols: 0"; "<<<<<"];
   [">>>>>"; "Discovered Pareto Front: "; ">>>>>"; "Non-dominated Point: costs: (3; n-sols: 0"; "<<<<<"; "<<<<<"];
   [">>>>>"; "Discovered Pareto Front: "; ">>>>>"; "Non-dominated Point: costs: (3); n-sols: 1"; "v 12"; "<<<<<"; "<<<<<"]]%string =
  [Some []; Some [([3; 4]%Z, 0, [])]; None; None; None].
Proof. vm_compute. reflexivity. Qed.
(** The hypotheses of [C86_command_line] hold of the run of [C57_command_line_run]. *)
Example C86_example_run : exists t,
  cli_text (PropCli.ex_args APMinimal true) (run_cli TI pb_brute (PropCli.ex_args APMinimal true) (env false 200) exp_p) = Some t /\
  show t = lines [">>>>>"; "Discovered Pareto Front: ";
     ">>>>>"; "Non-dominated Point: costs: (0, 0); n-sols: 2"; "v 001_0"; "v 010_0"; "<<<<<";
     ">>>>>"; "Non-dominated Point: costs: (3, -1); n-sols: 3"; "v 100_0"; "v 101_0"; "v 110_0"; "<<<<<"; "<<<<<"]%string.
Proof. eexists. split; vm_compute; reflexivity. Qed.
