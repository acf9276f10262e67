(** * An interrupt is final (C81)

    The flag set by an interrupt is never taken back.  So once one call (of [solve] or of core
    boosting, in any history) has been stopped by it, all later calls are stopped as well and the
    reported front stays as it was.  No assumption is made on the oracle, the logger, the limits or
    the options. *)
From Coq Require Import List Bool Arith Lia ZArith.
From Verif Require Import Base Spec MTypes MKernel MPMinimal MLowerBounding MBiOptSat MOll EncSpec
  TotSpec ApiSpec CbSpec FinalSpec Inst ExInst Wp Sem Kern Init Api ApiTop Book TotInst Final PropCore.
Import ListNotations.

(** the front after the interrupted call is the front for good *)
Theorem C81_front_final : forall I (SP : enc_spec I) T (TS : tot_spec SP T) i o al s0 t h1 x h2,
  inst_ok i -> alg_new (I := I) al i o = Some s0 -> latched t (h1 ++ x :: h2) ->
  interrupted T al x (grun T al h1 s0) ->
  s_front (grun T al (h1 ++ x :: h2) s0) = s_front (grun T al (h1 ++ [x]) s0).
Proof.
  intros I SP T TS i o al s0 t h1 x h2 HI Hn HL Hx.
  apply (final_run TS i o al s0 t HI Hn h1 h2 x HL Hx).
Qed.
Print Assumptions C81_front_final.

(** a later [solve] is stopped: it asks the oracle at most once and adds nothing *)
Theorem C81_solve_stops : forall I (SP : enc_spec I) T (TS : tot_spec SP T) i o al s0 t h1 x h2 E l,
  inst_ok i -> alg_new (I := I) al i o = Some s0 -> latched t (h1 ++ x :: h2) ->
  interrupted T al x (grun T al h1 s0) -> raised_at t E ->
  let s := grun T al (h1 ++ x :: h2) s0 in
  let r := alg_solve al E l s in
  (fst r = Exit (ETerm Interrupted) \/ fst r = Exit (EErr ErrLogger) \/ fst r = Exit (EErr ErrOracle)) /\
  s_front (snd r) = s_front s /\ s_calls (snd r) <= S (s_calls s).
Proof.
  intros I SP T TS i o al s0 t h1 x h2 E l HI Hn HL Hx HE.
  apply (past_solve (SP := SP) i o al s0 t HI Hn); [|exact HE].
  apply (final_run TS i o al s0 t HI Hn h1 h2 x HL Hx).
Qed.
Print Assumptions C81_solve_stops.

(** later core boosting never gives an answer *)
Theorem C81_boost_stops : forall I (SP : enc_spec I) T (TS : tot_spec SP T) i o al s0 t h1 x h2 E opts,
  inst_ok i -> alg_new (I := I) al i o = Some s0 -> latched t (h1 ++ x :: h2) ->
  interrupted T al x (grun T al h1 s0) -> raised_at t E ->
  forall b, fst (alg_core_boost T E opts (grun T al (h1 ++ x :: h2) s0)) <> Done b.
Proof.
  intros I SP T TS i o al s0 t h1 x h2 E opts HI Hn HL Hx HE b Hb.
  destruct (final_boost TS i o al s0 t HI Hn h1 h2 x HL Hx E opts HE) as [y Hy]. congruence.
Qed.
Print Assumptions C81_boost_stops.

(** *** Examples: the flag is raised when core boosting is over; the first call of [solve] is stopped
    with points found, and so are the calls after it (outcome and size of the front per call) *)
Definition fi_env (t : nat) : environ := mkEnv (brute true) (fun n => t <=? n) (fun _ => false) 300.
Definition fi_boost t : gstep := GBoost (fi_env t) (mkCb true false).
Definition fi_solve t : gstep := GStep (Solve (fi_env t) lims_none).
Example fi_latched t : latched t [fi_boost t; fi_solve t; GStep Attach; fi_solve t; fi_boost t].
Proof.
  assert (H : raised_at t (fi_env t)) by (split; [apply Nat.lt_0_succ|reflexivity]).
  intros x E Hx He.
  destruct Hx as [<-|[<-|[<-|[<-|[<-|[]]]]]]; try discriminate; injection He as <-; exact H.
Qed.
Fixpoint gouts (al : alg) (h : list gstep) (s : st GI) : list (option exit * nat) :=
  match h with
  | [] => []
  | x :: r =>
      let e := match x with
        | GBoost E opts => match fst (alg_core_boost TI E opts s) with Exit y => Some y | Done _ => None end
        | GStep (Solve E l) => match fst (alg_solve al E l s) with Exit y => Some y | Done _ => None end
        | _ => None
        end in
      (e, length (s_front (grun_step TI al x s))) :: gouts al r (grun_step TI al x s)
  end.
Definition fi_run al t : option (list (option exit * nat)) :=
  match alg_new (I := GI) al ex_inst (cb_kopts NoEnum false false false false) with
  | Some s => Some (gouts al [fi_boost t; fi_solve t; GStep Attach; fi_solve t; fi_boost t] s)
  | None => None
  end.
Definition fi_out (k : nat) : list (option exit * nat) :=
  [(None, 0); (Some (ETerm Interrupted), k); (None, k); (Some (ETerm Interrupted), k);
   (Some (EErr ErrApi), k)].
Example C81_example_pmin : fi_run APMinimal 16 = Some (fi_out 1).
Proof. vm_compute. reflexivity. Qed.
Example C81_example_lb : fi_run ALowerBounding 14 = Some (fi_out 1).
Proof. vm_compute. reflexivity. Qed.
Example C81_example_bos : fi_run ABiOptSat 14 = Some (fi_out 2).
Proof. vm_compute. reflexivity. Qed.
(** core boosting itself is interrupted, then called again *)
Example C81_example_boost : match alg_new (I := GI) APMinimal ex_inst (cb_kopts NoEnum false false false false) with
  | Some s => gouts APMinimal [fi_boost 3; fi_boost 3; fi_solve 3] s =
      [(Some (ETerm Interrupted), 0); (Some (ETerm Interrupted), 0); (Some (ETerm Interrupted), 0)] /\
      interrupted TI APMinimal (fi_boost 3) s
  | None => False
  end.
Proof. vm_compute. auto. Qed.
