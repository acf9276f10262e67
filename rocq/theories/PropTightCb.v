(** * C89: solving with solution tightening after core boosting

    Core boosting changes the lower bounds and the encodings of the objectives, not their literals;
    so tightening works as before.  [tries] (CbSpec.v): core boosting any number of times before the
    first [solve], completed or stopped. *)
From Coq Require Import List Bool Arith Lia ZArith.
From Verif Require Import Base Spec MTypes MKernel MPMinimal MLowerBounding MBiOptSat MOll EncSpec
  TotSpec ApiSpec CbSpec Inst ExInst Wp Sem Kern Init Api ApiTop Book TotInst CbTop CbApi CbHist CbStop PropFront PropCore
  MTight InproSpec TightSpec MTightAlg TightAlgSpec TightSim PropTightAlg.
From Verif Require PropCbStop.
Import ListNotations.

Theorem C89_boosted_refines : forall I (SP : enc_spec I) T (TS : tot_spec SP T) i o al s0 bs h,
  inst_ok i -> lits_distinct i -> alg_new (I := I) al i o = Some s0 ->
  boosts_ok o bs -> resets_ok T o bs s0 -> no_empty_core i o ->
  plain_objs i -> (al <> ABiOptSat -> not_shared (in_objs i)) -> run_t_ok (in_objs i) h ->
  exists h', run_ok h' /\ Forall2 same_step h h' /\ run_t al h (tries T bs s0) = run al h' (tries T bs s0).
Proof.
  intros I SP T TS i o al s0 bs h HI HD Hn Hb Hr Hd HO HN.
  assert (HK : objs_kept i (tries T bs s0)) by (eapply start_kept, (ct_start TS i o HI HD al s0 bs); eassumption).
  revert HK. generalize (tries T bs s0). clear Hn Hb Hr Hd s0 bs. induction h as [|x h IH]; intros s Hs Hh.
  { exists []. split; [constructor|]. split; [constructor|reflexivity]. }
  inversion Hh as [|y k Hx Hh']; subst. destruct x as [E1 F1 w1 l1| |]; cbn [run_t run_tstep].
  - destruct Hx as (X1 & X2 & X3). destruct (tight_run E1 F1 w1 i al l1 s X1 X2 HO HN Hs) as (E' & H1 & H2 & H3 & H4).
    destruct (IH _ H4 Hh') as (h' & G1 & G2 & G3). exists (Solve E' l1 :: h'). split; [constructor; [split; assumption|exact G1]|].
    split; [constructor; [constructor; exact H2|exact G2]|]. cbn [run run_step]. rewrite <- H3. exact G3.
  - destruct (IH (snd (attach_logger s)) Hs Hh') as (h' & G1 & G2 & G3). exists (Attach :: h'). split; [constructor; [exact Logic.I|exact G1]|].
    split; [constructor; [constructor|exact G2]|]. exact G3.
  - destruct (IH (snd (detach_logger s)) Hs Hh') as (h' & G1 & G2 & G3). exists (Detach :: h'). split; [constructor; [exact Logic.I|exact G1]|].
    split; [constructor; [constructor|exact G2]|]. exact G3.
Qed.
Print Assumptions C89_boosted_refines.

(** the first call after core boosting: correct at every exit, exact when it finishes *)
Theorem C89_boosted_first : forall I (SP : enc_spec I) T (TS : tot_spec SP T) i o al s0 bs E F w l r s',
  inst_ok i -> lits_distinct i -> enum_ok i o -> alg_new (I := I) al i o = Some s0 ->
  boosts_ok o bs -> resets_ok T o bs s0 -> no_empty_core i o -> (al = ABiOptSat -> no_fixed_cost i) ->
  plain_objs i -> (al <> ABiOptSat -> not_shared (in_objs i)) -> oracle_ok E -> flipper_ok (in_objs i) F -> lims_pos l ->
  tight_solve E F w al l (tries T bs s0) = (r, s') ->
  sound_front i (s_front s') /\ (r = Done tt -> exact_front i (s_front s')).
Proof.
  intros I SP T TS i o al s0 bs E F w l r s' HI HD HE Hn Hb Hr Hd Ha HO HN HOE HF Hl Hs.
  assert (HK : objs_kept i (tries T bs s0)) by (eapply start_kept, (ct_start TS i o HI HD al s0 bs); eassumption).
  destruct (tight_run E F w i al l _ HOE HF HO HN HK) as (E' & H1 & _ & H3 & _). rewrite H3 in Hs.
  pose proof (ct_first TS i o HI HD al s0 bs Hn Hb Hr Hd Ha E' l HE H1 Hl) as G. rewrite Hs in G.
  destruct r as [u|x]; (split; [apply G|]); intros e; [apply G|discriminate].
Qed.
Print Assumptions C89_boosted_first.

Theorem C89_boosted_terminates : forall I (SP : enc_spec I) T (TS : tot_spec SP T) i o al s0 bs E F w,
  inst_ok i -> lits_distinct i -> enum_ok i o -> alg_new (I := I) al i o = Some s0 ->
  boosts_ok o bs -> resets_ok T o bs s0 -> no_empty_core i o -> (al = ABiOptSat -> no_fixed_cost i) ->
  plain_objs i -> (al <> ABiOptSat -> not_shared (in_objs i)) -> oracle_ok E -> flipper_ok (in_objs i) F ->
  calm E -> iter_bound i < ev_fuel E ->
  exists s', tight_solve E F w al lims_none (tries T bs s0) = (Done tt, s').
Proof.
  intros I SP T TS i o al s0 bs E F w HI HD HE Hn Hb Hr Hd Ha HO HN HOE HF (C1 & C2 & C3) Hf.
  assert (HK : objs_kept i (tries T bs s0)) by (eapply start_kept, (ct_start TS i o HI HD al s0 bs); eassumption).
  destruct (tight_run E F w i al lims_none _ HOE HF HO HN HK) as (E' & H1 & (G2 & G3 & G4 & G5) & H3 & _). rewrite H3.
  apply (ct_term TS i o HI HD al s0 bs Hn Hb Hr Hd Ha E' HE H1).
  - split; [rewrite G2; exact C1|split; [rewrite G3; exact C2|exact (G5 C3)]].
  - rewrite G4. exact Hf.
Qed.
Print Assumptions C89_boosted_terminates.

(** all later calls keep the front correct *)
Theorem C89_boosted_histories : forall I (SP : enc_spec I) T (TS : tot_spec SP T) i o al s0 bs h,
  inst_ok i -> lits_distinct i -> al <> ABiOptSat -> o_enum o = NoEnum -> alg_new (I := I) al i o = Some s0 ->
  boosts_ok o bs -> resets_ok T o bs s0 -> no_empty_core i o ->
  plain_objs i -> not_shared (in_objs i) -> run_t_ok (in_objs i) h ->
  sound_front i (s_front (run_t al h (tries T bs s0))).
Proof.
  intros I SP T TS i o al s0 bs h HI HD Ha Hen Hn Hb Hr Hd HO HN Hh.
  destruct (C89_boosted_refines I SP T TS i o al s0 bs h HI HD Hn Hb Hr Hd HO (fun _ => HN) Hh) as (h' & G1 & _ & ->).
  apply (ct_history TS i o HI HD al s0 bs Hn Hb Hr Hd); auto.
Qed.
Print Assumptions C89_boosted_histories.

(** *** Example: two core boostings, each stopped by the logger, then [solve] with tightening *)
Definition tb_bs (n m : nat) : list bstep := PropCbStop.st_bs false n m.
Definition tb_opts := cb_kopts NoEnum true false false false.
Example C89_boosted_meets : inst_ok tx_inst /\ lits_distinct tx_inst /\ plain_objs tx_inst /\ not_shared (in_objs tx_inst) /\
  boosts_ok tb_opts (tb_bs 3 9) /\ (forall s : st GI, resets_ok TI tb_opts (tb_bs 3 9) s) /\ no_empty_core tx_inst tb_opts.
Proof.
  destruct tx_ok as (A & B & C). split; [exact A|]. split; [exact (proj2 B)|]. split; [exact B|]. split; [exact C|].
  split; [apply PropCbStop.st_ok; reflexivity|]. split; [intros s; apply PropCbStop.st_plain|].
  left. exists (fun _ => true). intros c [<-|[<-|[]]]; reflexivity.
Qed.
Definition tb_run al w n m :=
  match alg_new (I := GI) al tx_inst tb_opts with
  | Some s => let '(r, s2) := tight_solve ex_env ex_flip w al lims_none (tries TI (tb_bs n m) s) in
      Some (PropCbStop.outs (tb_bs n m) s, r, map nd_costs (s_front s2))
  | None => None
  end.
Example C89_boosted_example : tb_run APMinimal HAlways 3 9 = Some ([Exit (EErr ErrLogger); Exit (EErr ErrLogger)], Done tt, [[0; 4]; [3; 1]]%Z).
Proof. vm_compute. reflexivity. Qed.
Example C89_boosted_example_done : tb_run ALowerBounding HOuterLoop 3 99 = Some ([Exit (EErr ErrLogger); Done true], Done tt, [[0; 4]; [3; 1]]%Z).
Proof. vm_compute. reflexivity. Qed.
