(** * Properties of the reported Pareto fronts (C01-C14, C21, C41, C55)

    Every theorem quantifies over the objective encoding ([I] with its laws [SP]), the
    environment [E] (SAT oracle, interrupt flag, logger, loop fuel), the instance and the
    options.  Each is followed by what it depends on and by an example that meets its
    hypotheses. *)
From Coq Require Import List Bool Arith Lia ZArith Permutation.
From Verif Require Import Base Spec MTypes MKernel MPMinimal MLowerBounding MBiOptSat EncSpec
  ApiSpec Inst ExInst Kern ApiTop FeasInv.
Import ListNotations.

(** Example environment and runs *)
Definition ex_env := env true 300.
Definition ex_env' := env false 300.
Definition ex_first al e E l := first_solve (I := CI) al ex_inst (ex_opts e) E l.
Definition ex_costs (r : option (res unit * st CI)) : option (res unit * list (list Z)) :=
  match r with Some (x, s) => Some (x, map nd_costs (s_front s)) | None => None end.

(** ** C01, C04, C07: soundness at any time *)
Theorem C01_pminimal_sound : forall I (SP : enc_spec I) i o h s,
  inst_ok i -> o_enum o = NoEnum -> alg_new (I := I) APMinimal i o = Some s -> run_ok h ->
  sound_front i (s_front (run APMinimal h s)).
Proof. intros I SP i o h s HI Hn Hs Hh. apply (top_history SP i o HI APMinimal); auto; discriminate. Qed.
Print Assumptions C01_pminimal_sound.

Theorem C04_lowerbounding_sound : forall I (SP : enc_spec I) i o h s,
  inst_ok i -> o_enum o = NoEnum -> alg_new (I := I) ALowerBounding i o = Some s -> run_ok h ->
  sound_front i (s_front (run ALowerBounding h s)).
Proof. intros I SP i o h s HI Hn Hs Hh. apply (top_history SP i o HI ALowerBounding); auto; discriminate. Qed.
Print Assumptions C04_lowerbounding_sound.

(** at every exit of the first call (any enumeration option); and over histories without
    enumeration every single point is optimal (a point may be repeated, see C42) *)
Theorem C07_bioptsat_sound : forall I (SP : enc_spec I) i o E l s,
  inst_ok i -> enum_ok i o -> alg_new (I := I) ABiOptSat i o = Some s -> oracle_ok E -> lims_pos l ->
  sound_front i (s_front (snd (alg_solve ABiOptSat E l s))).
Proof. intros I SP i o E l s HI HE Hs. exact (top_sound SP i o HI HE ABiOptSat s Hs E l). Qed.
Print Assumptions C07_bioptsat_sound.
Theorem C07_bioptsat_sound_history : forall I (SP : enc_spec I) i o h s,
  inst_ok i -> o_enum o = NoEnum -> alg_new (I := I) ABiOptSat i o = Some s -> run_ok h ->
  Forall (sound_point i) (s_front (run ABiOptSat h s)).
Proof. intros I SP i o h s HI Hn Hs Hh. exact (top_history_bi SP i o HI s h Hn Hs Hh). Qed.
Print Assumptions C07_bioptsat_sound_history.

(** A history that stops after the first point, then continues *)
Definition ex_hist : list step := [Attach; Solve ex_env ex_lims; Detach; Solve ex_env' lims_none].
Example ex_hist_ok : run_ok ex_hist.
Proof. repeat constructor; try apply brute_ok; try discriminate. Qed.
Definition ex_run al e h : option (list (list Z)) :=
  option_map (fun s => map nd_costs (s_front (run al h s))) (alg_new (I := CI) al ex_inst (ex_opts e)).
Example C01_example : ex_run APMinimal NoEnum ex_hist = Some [[3; 0]; [5; -1]; [1; 1]]%Z.
Proof. vm_compute. reflexivity. Qed.
Example C04_example : ex_run ALowerBounding NoEnum ex_hist = Some [[1; 1]; [3; 0]; [5; -1]]%Z.
Proof. vm_compute. reflexivity. Qed.
Example C07_example : ex_costs (ex_first ABiOptSat NoEnum ex_env ex_lims) =
  Some (Exit (ETerm PPLimit), [[1; 1]]%Z).
Proof. vm_compute. reflexivity. Qed.

(** ** C02, C05, C08: a finished first run has exactly the Pareto front *)
Theorem C02_pminimal_complete : forall I (SP : enc_spec I) i o E l s',
  inst_ok i -> o_enum o = NoEnum -> oracle_ok E -> lims_pos l ->
  first_solve (I := I) APMinimal i o E l = Some (Done tt, s') ->
  exact_front i (s_front s') /\ sound_front i (s_front s') /\
  (s_front s' = [] <-> forall a, ~ feasible (in_cls i) a).
Proof. intros I SP i o E l s' HI Hn HO Hl H. exact (top_exact SP i o HI (enum_none i o Hn) _ E l s' HO Hl H). Qed.
Print Assumptions C02_pminimal_complete.
Theorem C05_lowerbounding_complete : forall I (SP : enc_spec I) i o E l s',
  inst_ok i -> o_enum o = NoEnum -> oracle_ok E -> lims_pos l ->
  first_solve (I := I) ALowerBounding i o E l = Some (Done tt, s') ->
  exact_front i (s_front s') /\ sound_front i (s_front s') /\
  (s_front s' = [] <-> forall a, ~ feasible (in_cls i) a).
Proof. intros I SP i o E l s' HI Hn HO Hl H. exact (top_exact SP i o HI (enum_none i o Hn) _ E l s' HO Hl H). Qed.
Print Assumptions C05_lowerbounding_complete.

(** reported in lexicographic order: first objective strictly up, second strictly down *)
Definition strictly_ordered (f : front assignment) : Prop :=
  ForallOrdPairs (fun p q => exists x y x' y', nd_costs p = [x; y] /\ nd_costs q = [x'; y'] /\
    (x < x')%Z /\ (y' < y)%Z) f.
Theorem C08_bioptsat_complete : forall I (SP : enc_spec I) i o E l s',
  inst_ok i -> enum_ok i o -> oracle_ok E -> lims_pos l ->
  first_solve (I := I) ABiOptSat i o E l = Some (Done tt, s') ->
  exact_front i (s_front s') /\ sound_front i (s_front s') /\ strictly_ordered (s_front s') /\
  (s_front s' = [] <-> forall a, ~ feasible (in_cls i) a).
Proof. exact @top_bi_complete. Qed.
Print Assumptions C08_bioptsat_complete.

Example C02_example : ex_costs (ex_first APMinimal NoEnum ex_env lims_none) = Some (Done tt, [[3; 0]; [1; 1]; [5; (-1)]]%Z).
Proof. vm_compute. reflexivity. Qed.
Example C05_example : ex_costs (ex_first ALowerBounding NoEnum ex_env' lims_none) =
  Some (Done tt, [[1; 1]; [3; 0]; [5; -1]]%Z).
Proof. vm_compute. reflexivity. Qed.
Example C08_example : ex_costs (ex_first ABiOptSat (Solutions None) ex_env' lims_none) =
  Some (Done tt, [[1; 1]; [3; 0]; [5; -1]]%Z).
Proof. vm_compute. reflexivity. Qed.
(** ... and the infeasible case *)
Definition bad_inst : inst := mkInst [[pos 0]; [neg 0]] [ex_o1; ex_o2] ex_vm.
Example C02_infeasible : ex_costs (first_solve (I := CI) APMinimal bad_inst (ex_opts NoEnum) ex_env lims_none) =
  Some (Done tt, []).
Proof. vm_compute. reflexivity. Qed.

(** ** C03, C06, C09: termination; [iter_bound] depends on the instance only *)
Theorem C03_pminimal_terminates : forall I (SP : enc_spec I) i o E,
  inst_ok i -> enum_ok i o -> oracle_ok E -> calm E -> iter_bound i < ev_fuel E ->
  exists s', first_solve (I := I) APMinimal i o E lims_none = Some (Done tt, s').
Proof.
  intros I SP i o E HI HE HO HC HF. apply (top_terminates SP i o HI HE APMinimal E); auto; discriminate.
Qed.
Print Assumptions C03_pminimal_terminates.
Theorem C06_lowerbounding_terminates : forall I (SP : enc_spec I) i o E,
  inst_ok i -> enum_ok i o -> oracle_ok E -> calm E -> iter_bound i < ev_fuel E ->
  exists s', first_solve (I := I) ALowerBounding i o E lims_none = Some (Done tt, s').
Proof.
  intros I SP i o E HI HE HO HC HF. apply (top_terminates SP i o HI HE ALowerBounding E); auto; discriminate.
Qed.
Print Assumptions C06_lowerbounding_terminates.
Theorem C09_bioptsat_terminates : forall I (SP : enc_spec I) i o E,
  inst_ok i -> length (in_objs i) = 2 -> enum_ok i o -> oracle_ok E -> calm E -> iter_bound i < ev_fuel E ->
  exists s', first_solve (I := I) ABiOptSat i o E lims_none = Some (Done tt, s').
Proof.
  intros I SP i o E HI H2 HE HO HC HF. apply (top_terminates SP i o HI HE ABiOptSat E); auto.
Qed.
Print Assumptions C09_bioptsat_terminates.
Example C03_example : inst_ok ex_inst /\ enum_ok ex_inst (ex_opts NoEnum) /\ oracle_ok ex_env /\ calm ex_env /\
  iter_bound ex_inst < ev_fuel ex_env.
Proof.
  split; [apply ex_ok|]. split; [apply ex_enum|]. split; [apply brute_ok|]. split; [apply env_calm|].
  apply Nat.ltb_lt. vm_compute. reflexivity.
Qed.

(** ** C10: finished runs agree, whatever algorithm, encoding, oracle and options *)
Theorem C10_algorithms_agree :
  forall I1 (S1 : enc_spec I1) I2 (S2 : enc_spec I2) i al1 al2 o1 o2 E1 E2 l1 l2 s1 s2,
  inst_ok i -> enum_ok i o1 -> enum_ok i o2 -> oracle_ok E1 -> oracle_ok E2 -> lims_pos l1 -> lims_pos l2 ->
  first_solve (I := I1) al1 i o1 E1 l1 = Some (Done tt, s1) ->
  first_solve (I := I2) al2 i o2 E2 l2 = Some (Done tt, s2) ->
  Permutation (map nd_costs (s_front s1)) (map nd_costs (s_front s2)).
Proof. exact @top_agree. Qed.
Print Assumptions C10_algorithms_agree.
Example C10_example :
  ex_costs (ex_first APMinimal NoEnum ex_env lims_none) = Some (Done tt, [[3; 0]; [1; 1]; [5; -1]]%Z) /\
  ex_costs (ex_first ABiOptSat (PMCSs None) ex_env' lims_none) = Some (Done tt, [[1; 1]; [3; 0]; [5; -1]]%Z).
Proof. split; vm_compute; reflexivity. Qed.

(** ** C11: stored solutions are feasible and have the reported costs, always *)
Theorem C11_solutions_feasible : forall I (SP : enc_spec I) i o al h s,
  inst_ok i -> alg_new (I := I) al i o = Some s ->
  Forall (fun x => match x with Solve E l => oracle_ok E | _ => True end) h ->
  forall p, In p (s_front (run al h s)) ->
    nd_sols p <> [] /\ forall sol, In sol (nd_sols p) ->
      valid_solution (in_cls i) (in_objs i) (n_orig i) (nd_costs p) sol.
Proof. exact @top_feasible. Qed.
Print Assumptions C11_solutions_feasible.
(** stopped in the middle of an enumeration, with zero limits and resumed *)
Definition ex_hist2 : list step :=
  [Solve ex_env (mkLims None (Some 2) None None); Solve ex_env' lims_none].
Example C11_example : ex_run APMinimal (Solutions None) ex_hist2 = Some [[3; 0]; [3; 0]; [1; 1]; [5; (-1)]]%Z.
Proof. vm_compute. reflexivity. Qed.

(** ** C12, C13, C14: enumeration *)
Theorem C12_enumeration_exact : forall I (SP : enc_spec I) i o al E l s',
  inst_ok i -> enum_ok i o -> oracle_ok E -> lims_pos l -> o_enum o = Solutions None ->
  first_solve (I := I) al i o E l = Some (Done tt, s') ->
  forall p, In p (s_front s') -> NoDup (nd_sols p) /\
    forall sol, In sol (nd_sols p) <->
      valid_solution (in_cls i) (in_objs i) (n_orig i) (nd_costs p) sol.
Proof. exact @top_C12. Qed.
Print Assumptions C12_enumeration_exact.
(** at most max(k,1) solutions per point *)
Theorem C13_enumeration_limit : forall I (SP : enc_spec I) i o al E l s' k,
  inst_ok i -> enum_ok i o -> oracle_ok E -> lims_pos l ->
  o_enum o = Solutions (Some k) \/ o_enum o = PMCSs (Some k) ->
  first_solve (I := I) al i o E l = Some (Done tt, s') ->
  forall p, In p (s_front s') -> length (nd_sols p) <= Nat.max 1 k.
Proof. exact @top_C13. Qed.
Print Assumptions C13_enumeration_limit.
(** with [Solutions(Some(k))], pairwise different and as many as there are, up to max(k,1):
    [all] lists the optimal solutions of the point *)
Theorem C13_enumeration_count : forall I (SP : enc_spec I) i o al E l s' k,
  inst_ok i -> enum_ok i o -> oracle_ok E -> lims_pos l -> o_enum o = Solutions (Some k) ->
  first_solve (I := I) al i o E l = Some (Done tt, s') ->
  forall p, In p (s_front s') -> forall all, NoDup all ->
    (forall sol, In sol all <-> valid_solution (in_cls i) (in_objs i) (n_orig i) (nd_costs p) sol) ->
    NoDup (nd_sols p) /\ length (nd_sols p) = Nat.min (Nat.max 1 k) (length all).
Proof. exact @top_C13_count. Qed.
Print Assumptions C13_enumeration_count.
(** [raw_lit i x]: [x] is a literal of some objective.  Every optimal assignment's set of true
    objective literals includes that of a stored solution, and no stored solution's set is
    included in that of a later one. *)
Theorem C14_pmcs_enumeration : forall I (SP : enc_spec I) i o al E l s',
  inst_ok i -> objs_orig i -> oracle_ok E -> lims_pos l -> o_enum o = PMCSs None ->
  first_solve (I := I) al i o E l = Some (Done tt, s') ->
  exact_front i (s_front s') /\
  forall p, In p (s_front s') ->
  (forall a, feasible (in_cls i) a -> costs (in_objs i) a = nd_costs p ->
     exists sol, In sol (nd_sols p) /\
       forall x, raw_lit i x -> lit_value sol x = Some true -> lit_true a x = true) /\
  ForallOrdPairs (fun s1 s2 => exists x, raw_lit i x /\ lit_value s1 x = Some true /\
     lit_value s2 x = Some false) (nd_sols p).
Proof. exact @top_C14. Qed.
Print Assumptions C14_pmcs_enumeration.
Definition ex_counts (r : option (res unit * st CI)) : option (list (list Z * Z)) :=
  match r with Some (Done _, s) => Some (map (fun p => (nd_costs p, Z.of_nat (length (nd_sols p)))) (s_front s)) | _ => None end.
Example C12_example : ex_counts (ex_first APMinimal (Solutions None) ex_env lims_none) = Some [([3; 0], 3); ([1; 1], 1); ([5; (-1)], 2)]%Z.
Proof. vm_compute. reflexivity. Qed.
Example C13_example : ex_counts (ex_first ALowerBounding (Solutions (Some 2)) ex_env lims_none) =
  Some [([1; 1], 1); ([3; 0], 2); ([5; -1], 2)]%Z.
Proof. vm_compute. reflexivity. Qed.
Example C14_example : ex_counts (ex_first ABiOptSat (PMCSs None) ex_env lims_none) =
  Some [([1; 1], 1); ([3; 0], 2); ([5; -1], 1)]%Z.
Proof. vm_compute. reflexivity. Qed.

(** ** C21: no panic.  Construction succeeds, and every call returns a proper result. *)
Theorem C21_new_succeeds : forall I (SP : enc_spec I) i o al,
  inst_ok i -> (al = ABiOptSat -> length (in_objs i) = 2) -> exists s, alg_new (I := I) al i o = Some s.
Proof. exact @top_new. Qed.
Print Assumptions C21_new_succeeds.
Theorem C21_no_panic_first : forall I (SP : enc_spec I) i o al E l r s',
  inst_ok i -> enum_ok i o -> oracle_ok E -> lims_pos l ->
  first_solve (I := I) al i o E l = Some (r, s') -> proper_exit i E r.
Proof. exact @top_no_panic_first. Qed.
Print Assumptions C21_no_panic_first.
Theorem C21_no_panic_history : forall I (SP : enc_spec I) i o al h E l s,
  inst_ok i -> o_enum o = NoEnum -> alg_new (I := I) al i o = Some s -> run_ok h -> oracle_ok E -> lims_pos l ->
  proper_exit i E (fst (alg_solve al E l (run al h s))).
Proof. exact @top_no_panic_history. Qed.
Print Assumptions C21_no_panic_history.
(** the conversions that can panic do so outside the hypotheses: an objective beyond [isize] *)
Definition huge_o : raw_obj := ([(pos 0, 1); (pos 1, 2)], isize_max).
Example C21_needs_fits :
  match first_solve (I := CI) APMinimal (mkInst [[pos 0]] [huge_o] (mkVm 2 1 1)) (ex_opts NoEnum) ex_env lims_none with
  | Some (Exit EPanic, _) => True | _ => False end.
Proof. vm_compute. exact Logic.I. Qed.

(** ** C41: solving again after Done *)
Theorem C41_solve_again : forall I (SP : enc_spec I) i o al E l s1 h,
  inst_ok i -> enum_ok i o -> al <> ABiOptSat -> oracle_ok E -> lims_pos l ->
  first_solve (I := I) al i o E l = Some (Done tt, s1) -> run_ok h ->
  s_front (run al h s1) = s_front s1 /\
  forall E', oracle_ok E' -> calm E' -> iter_bound i < ev_fuel E' ->
    exists s2, alg_solve al E' lims_none (run al h s1) = (Done tt, s2) /\ s_front s2 = s_front s1.
Proof. exact @top_solve_again. Qed.
Print Assumptions C41_solve_again.
Example C41_example : ex_run APMinimal (Solutions None) [Solve ex_env lims_none; Solve ex_env' lims_none; Solve ex_env lims_none]
  = Some [[3; 0]; [1; 1]; [5; (-1)]]%Z.
Proof. vm_compute. reflexivity. Qed.

(** ** C55: enumeration does not change the front *)
Theorem C55_enumeration_same_front : forall I (SP : enc_spec I) i o al E l s',
  inst_ok i -> enum_ok i o -> oracle_ok E -> lims_pos l ->
  first_solve (I := I) al i o E l = Some (Done tt, s') ->
  exact_front i (s_front s') /\ sound_front i (s_front s').
Proof. exact @top_C55. Qed.
Print Assumptions C55_enumeration_same_front.
Example C55_example : ex_costs (ex_first APMinimal (Solutions (Some 2)) ex_env' lims_none) = Some (Done tt, [[3; 0]; [5; (-1)]; [1; 1]]%Z).
Proof. vm_compute. reflexivity. Qed.
