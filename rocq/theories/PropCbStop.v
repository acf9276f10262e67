(** * Core boosting that was stopped (C80)

    The user calls core boosting any number of times before solving ([tries]) and goes on however
    the calls ended: completed, stopped by an interrupt or a failing logger anywhere (in the search
    for cores, after the oracle has been reset, while the encodings are put together), or with the
    answer that there is no solution.  The theorems quantify over the encodings, the totalizer
    database, the instance, the options and all environments. *)
From Coq Require Import List Bool Arith Lia ZArith.
From Verif Require Import Base Spec MTypes MKernel MPMinimal MLowerBounding MBiOptSat MOll EncSpec
  TotSpec ApiSpec CbSpec Inst ExInst Wp Sem Kern Init Api ApiTop Book TotInst CbTop CbApi CbHist CbStop PropCore.
Import ListNotations.

Theorem C80_exact : forall I (SP : enc_spec I) T (TS : tot_spec SP T) i o al s0 bs E l s',
  inst_ok i -> lits_distinct i -> enum_ok i o -> alg_new (I := I) al i o = Some s0 ->
  boosts_ok o bs -> resets_ok T o bs s0 -> no_empty_core i o -> (al = ABiOptSat -> no_fixed_cost i) ->
  oracle_ok E -> lims_pos l -> alg_solve al E l (tries T bs s0) = (Done tt, s') ->
  exact_front i (s_front s') /\ sound_front i (s_front s').
Proof.
  intros I SP T TS i o al s0 bs E l s' HI HD HE Hn Hb Hr Hd Ha HO Hl Hs.
  pose proof (ct_first TS i o HI HD al s0 bs Hn Hb Hr Hd Ha E l HE HO Hl) as G. now rewrite Hs in G.
Qed.
Print Assumptions C80_exact.
Theorem C80_sound : forall I (SP : enc_spec I) T (TS : tot_spec SP T) i o al s0 bs E l,
  inst_ok i -> lits_distinct i -> enum_ok i o -> alg_new (I := I) al i o = Some s0 ->
  boosts_ok o bs -> resets_ok T o bs s0 -> no_empty_core i o -> (al = ABiOptSat -> no_fixed_cost i) ->
  oracle_ok E -> lims_pos l -> sound_front i (s_front (snd (alg_solve al E l (tries T bs s0)))).
Proof.
  intros I SP T TS i o al s0 bs E l HI HD HE Hn Hb Hr Hd Ha HO Hl.
  pose proof (ct_first TS i o HI HD al s0 bs Hn Hb Hr Hd Ha E l HE HO Hl) as G.
  destruct (alg_solve al E l (tries T bs s0)) as [[u|x] s']; apply G.
Qed.
Print Assumptions C80_sound.
Theorem C80_terminates : forall I (SP : enc_spec I) T (TS : tot_spec SP T) i o al s0 bs E,
  inst_ok i -> lits_distinct i -> enum_ok i o -> alg_new (I := I) al i o = Some s0 ->
  boosts_ok o bs -> resets_ok T o bs s0 -> no_empty_core i o -> (al = ABiOptSat -> no_fixed_cost i) ->
  oracle_ok E -> calm E -> iter_bound i < ev_fuel E ->
  exists s', alg_solve al E lims_none (tries T bs s0) = (Done tt, s').
Proof.
  intros I SP T TS i o al s0 bs E HI HD HE Hn Hb Hr Hd Ha.
  exact (ct_term TS i o HI HD al s0 bs Hn Hb Hr Hd Ha E HE).
Qed.
Print Assumptions C80_terminates.
Theorem C80_enumerates_all : forall I (SP : enc_spec I) T (TS : tot_spec SP T) i o al s0 bs E l s',
  inst_ok i -> lits_distinct i -> enum_ok i o -> o_enum o = Solutions None -> alg_new (I := I) al i o = Some s0 ->
  boosts_ok o bs -> resets_ok T o bs s0 -> no_empty_core i o -> (al = ABiOptSat -> no_fixed_cost i) ->
  oracle_ok E -> lims_pos l -> alg_solve al E l (tries T bs s0) = (Done tt, s') ->
  forall nd, In nd (s_front s') -> NoDup (nd_sols nd) /\
    forall sol, In sol (nd_sols nd) <-> valid_solution (in_cls i) (in_objs i) (n_orig i) (nd_costs nd) sol.
Proof.
  intros I SP T TS i o al s0 bs E l s' HI HD HE Hen Hn Hb Hr Hd Ha HO Hl Hs.
  exact (ct_enum_all TS i o HI HD al s0 bs Hn Hb Hr Hd Ha E l s' HE HO Hl Hs Hen).
Qed.
Print Assumptions C80_enumerates_all.
(** after further calls of [solve], stopped or not: the front stays sound, exits stay proper *)
Theorem C80_histories : forall I (SP : enc_spec I) T (TS : tot_spec SP T) i o al s0 bs h,
  inst_ok i -> lits_distinct i -> al <> ABiOptSat -> o_enum o = NoEnum -> alg_new (I := I) al i o = Some s0 ->
  boosts_ok o bs -> resets_ok T o bs s0 -> no_empty_core i o -> run_ok h ->
  sound_front i (s_front (run al h (tries T bs s0))).
Proof.
  intros I SP T TS i o al s0 bs h HI HD Ha Hen Hn Hb Hr Hd Hh.
  apply (ct_history TS i o HI HD al s0 bs Hn Hb Hr Hd); auto.
Qed.
Print Assumptions C80_histories.
Theorem C80_exits : forall I (SP : enc_spec I) T (TS : tot_spec SP T) i o al s0 bs h E l,
  inst_ok i -> lits_distinct i -> o_enum o = NoEnum -> alg_new (I := I) al i o = Some s0 ->
  boosts_ok o bs -> resets_ok T o bs s0 -> no_empty_core i o -> (al = ABiOptSat -> no_fixed_cost i) ->
  run_ok h -> oracle_ok E -> lims_pos l ->
  proper_exit i E (fst (alg_solve al E l (run al h (tries T bs s0)))).
Proof.
  intros I SP T TS i o al s0 bs h E l HI HD Hen Hn Hb Hr Hd Ha.
  exact (ct_exits TS i o HI HD al s0 bs Hn Hb Hr Hd Ha h E l Hen).
Qed.
Print Assumptions C80_exits.
(** core boosting can be called again: its answers are right, its exits proper *)
Theorem C80_boost_again : forall I (SP : enc_spec I) T (TS : tot_spec SP T) i o al s0 bs E opts,
  inst_ok i -> lits_distinct i -> alg_new (I := I) al i o = Some s0 ->
  boosts_ok o bs -> resets_ok T o bs s0 -> no_empty_core i o ->
  oracle_ok E -> core_nodup E -> (cb_reset opts = true -> o_store_cnf o = true) ->
  match alg_core_boost T E opts (tries T bs s0) with
  | (Done true, s1) => forall k r, nth_error (in_objs i) k = Some r -> fst r <> [] ->
      exists ob z, nth_error (p_objs (s_prob s1)) k = Some ob /\ externalize_one ob (obj_lb ob) = Some z /\
        optimum i r z
  | (Done false, _) => forall a, ~ feasible (in_cls i) a
  | (Exit x, _) => proper_exit i E (Exit x)
  end.
Proof.
  intros I SP T TS i o al s0 bs E opts HI HD Hn Hb Hr Hd.
  exact (ct_boost TS i o HI HD al s0 bs Hn Hb Hr Hd E opts).
Qed.
Print Assumptions C80_boost_again.
Theorem C80_boost_again_finishes : forall I (SP : enc_spec I) T (TS : tot_spec SP T) i o al s0 bs E opts,
  inst_ok i -> lits_distinct i -> alg_new (I := I) al i o = Some s0 ->
  boosts_ok o bs -> resets_ok T o bs s0 -> no_empty_core i o ->
  oracle_ok E -> core_nodup E -> (cb_reset opts = true -> o_store_cnf o = true) ->
  calm E -> iter_bound i < ev_fuel E ->
  exists b s1, alg_core_boost T E opts (tries T bs s0) = (Done b, s1).
Proof.
  intros I SP T TS i o al s0 bs E opts HI HD Hn Hb Hr Hd.
  exact (ct_boost_term TS i o HI HD al s0 bs Hn Hb Hr Hd E opts).
Qed.
Print Assumptions C80_boost_again_finishes.

(** *** Examples *)
(** the [n]-th call to the logger fails (an interrupt would also stop the calls after it, C81) *)
Definition st_log (n : nat) : environ := mkEnv (brute true) (fun _ => false) (fun k => k =? n) 300.
Fixpoint outs (bs : list bstep) (s : st GI) : list (res bool) :=
  match bs with
  | [] => []
  | Boost E opts :: r => fst (alg_core_boost TI E opts s) :: outs r (snd (alg_core_boost TI E opts s))
  | BAttach :: r => outs r (snd (attach_logger s))
  | BDetach :: r => outs r (snd (detach_logger s))
  end.
Definition ex_tries o al bs : option (list (res bool) * res unit * list (list Z)) :=
  match alg_new (I := GI) al ex_inst o with
  | Some s => let '(r, s2) := alg_solve al (env true 300) lims_none (tries TI bs s) in
      Some (outs bs s, r, map nd_costs (s_front s2))
  | None => None
  end.
Definition st_bs (reset : bool) (n m : nat) : list bstep :=
  [BAttach; Boost (st_log n) (mkCb false reset); Boost (st_log m) (mkCb true reset); BDetach].
Lemma st_log_ok n : oracle_ok (st_log n) /\ core_nodup (st_log n).
Proof. split; [intros q; apply brute_ok_env|exact (brute_core_nodup true 300)]. Qed.
Example st_ok o c n m : o_store_cnf o = true -> boosts_ok o (st_bs c n m).
Proof.
  intros H. unfold st_bs. constructor; [|constructor; [|constructor; [|constructor; [|constructor]]]]; cbn; auto.
  - pose proof (st_log_ok n). tauto.
  - pose proof (st_log_ok m). tauto.
Qed.
Example st_plain s n m o : resets_ok TI o (st_bs false n m) s.
Proof.
  intros pre E opts post Hb Hc _. exfalso.
  assert (H : In (Boost E opts) (st_bs false n m)) by (rewrite Hb; apply in_or_app; right; now left).
  destruct H as [H|[H|[H|[H|[]]]]]; try discriminate; injection H as _ <-; discriminate.
Qed.
Example st_reset s n m o : o_reserve_enc_vars o = false -> resets_ok TI o (st_bs true n m) s.
Proof.
  intros Ho pre E opts post Hb _ _. split; [exact Ho|]. intros E' o' Hin.
  assert (H : In (Boost E' o') (st_bs true n m)) by (rewrite Hb; apply in_or_app; now left).
  destruct H as [H|[H|[H|[H|[]]]]]; try discriminate; injection H as _ <-; reflexivity.
Qed.
Example st_live o : no_empty_core ex_inst o.
Proof. left. exists (fun _ => true). intros c [<-|[<-|[<-|[]]]]; reflexivity. Qed.
(** stopped in the search, then by the logger *)
Example C80_example_search : ex_tries (cb_kopts NoEnum true false false false) APMinimal (st_bs false 3 12) = Some ([Exit (EErr ErrLogger); Exit (EErr ErrLogger)], Done tt, [[3; 0]; [1; 1]; [5; (-1)]]%Z).
Proof. vm_compute. reflexivity. Qed.
(** stopped after the reset, then in the search *)
Example C80_example_reset : ex_tries (cb_kopts NoEnum false false false false) ALowerBounding (st_bs true 22 30) = Some ([Exit (EErr ErrLogger); Exit (EErr ErrLogger)], Done tt, [[1; 1]; [3; 0]; [5; (-1)]]%Z).
Proof. vm_compute. reflexivity. Qed.
(** stopped when the encodings have been put together *)
Example C80_example_merge : ex_tries (cb_kopts (Solutions None) false false false false) ABiOptSat (st_bs true 23 60) = Some ([Exit (EErr ErrLogger); Done true], Done tt, [[1; 1]; [3; 0]; [5; (-1)]]%Z).
Proof. vm_compute. reflexivity. Qed.

(** *** Without the condition on resets the front is wrong *)
(** With variables reserved for the encodings, a core boosting stopped (here by the logger) right after the reset of the
    oracle leaves a solver that forgot the reservation: the reserved variables are used a second
    time, and [solve] returns normally with a wrong front, which misses Pareto-optimal points and
    contains a dominated one. *)
Definition rf_opts := cb_kopts NoEnum true false false false.
Definition rf_bs := [BAttach; Boost (st_log 22) (mkCb false true); BDetach].
Lemma rf_run : match alg_new (I := GI) APMinimal ex_inst rf_opts with
  | Some s0 => outs rf_bs s0 = [Exit (EErr ErrLogger)] /\
      fst (alg_solve APMinimal (env true 300) lims_none (tries TI rf_bs s0)) = Done tt /\
      map nd_costs (s_front (snd (alg_solve APMinimal (env true 300) lims_none (tries TI rf_bs s0)))) = [[3; 0]; [2; 1]]%Z
  | None => False end.
Proof. vm_compute. auto. Qed.
Lemma st_dominated : ~ pareto_optimal (in_cls ex_inst) (in_objs ex_inst) [2; 1]%Z.
Proof.
  intros [_ H]. apply (H (fun v => match v with 0 | 2 | 3 => true | _ => false end)).
  - intros c [<-|[<-|[<-|[]]]]; reflexivity.
  - vm_compute. split; [repeat constructor; discriminate|discriminate].
Qed.
Lemma st_optimal : pareto_optimal (in_cls ex_inst) (in_objs ex_inst) [5; (-1)]%Z.
Proof.
  split.
  - exists (fun v => match v with 0 | 1 => true | _ => false end). split; [|reflexivity].
    intros c [<-|[<-|[<-|[]]]]; reflexivity.
  - intros b _ [H1 H2]. apply H2. cbn in *. unfold lit_true in *. cbn in *. revert H1 H2.
    unfold weakly_dominates, obj_value. cbn. unfold lit_true. cbn.
    destruct (b 0), (b 1), (b 3); cbn; intros H1 H2; try reflexivity; exfalso;
      inversion H1 as [|? ? ? ? _ H3]; subst; inversion H3 as [|? ? ? ? H4 _]; subst; lia.
Qed.
Theorem C80_reserved_reset_refuted : exists i o s0 bs E s',
  inst_ok i /\ lits_distinct i /\ enum_ok i o /\ alg_new (I := GI) APMinimal i o = Some s0 /\
  boosts_ok o bs /\ no_empty_core i o /\ oracle_ok E /\
  outs bs s0 = [Exit (EErr ErrLogger)] /\
  alg_solve APMinimal E lims_none (tries TI bs s0) = (Done tt, s') /\
  ~ exact_front i (s_front s') /\ ~ sound_front i (s_front s').
Proof.
  pose proof rf_run as H. destruct (alg_new APMinimal ex_inst rf_opts) as [s0|] eqn:e0; [|contradiction].
  destruct H as (H1 & H2 & H3).
  destruct (alg_solve APMinimal (env true 300) lims_none (tries TI rf_bs s0)) as [r s'] eqn:e1.
  cbn [fst snd] in H2, H3. subst r.
  exists ex_inst, rf_opts, s0, rf_bs, (env true 300), s'.
  split; [apply ex_ok|]. split; [apply ex_distinct|]. split; [exact Logic.I|]. split; [exact e0|].
  split; [repeat (constructor; [cbn; pose proof (st_log_ok 22); tauto|]); constructor|].
  split; [apply st_live|]. split; [apply brute_ok|]. split; [exact H1|]. split; [exact e1|].
  split.
  - intros [_ G]. apply st_dominated, G. rewrite H3. right. now left.
  - intros [_ G]. rewrite Forall_forall in G.
    assert (Hin : In [2; 1]%Z (map nd_costs (s_front s'))) by (rewrite H3; right; now left).
    apply in_map_iff in Hin. destruct Hin as (p & Hp & Hin). apply st_dominated. rewrite <- Hp. apply G, Hin.
Qed.
Print Assumptions C80_reserved_reset_refuted.
(** Without reserved variables the same happens if an earlier core boosting, completed without
    a reset, has already changed the encodings: the totalizers it built are kept, but after the
    reset their clauses are gone.  Solving returns normally with points missing. *)
Definition rg_opts := cb_kopts NoEnum false false false false.
Definition rg_bs := [Boost (env true 300) (mkCb false false); BAttach; Boost (st_log 22) (mkCb false true); BDetach].
Lemma rg_run : match alg_new (I := GI) ABiOptSat ex_inst rg_opts with
  | Some s0 => outs rg_bs s0 = [Done true; Exit (EErr ErrLogger)] /\
      fst (alg_solve ABiOptSat (env true 300) lims_none (tries TI rg_bs s0)) = Done tt /\
      map nd_costs (s_front (snd (alg_solve ABiOptSat (env true 300) lims_none (tries TI rg_bs s0)))) = [[1; 1]]%Z
  | None => False end.
Proof. vm_compute. auto. Qed.
Theorem C80_reset_after_plain_refuted : exists i o s0 bs E s',
  inst_ok i /\ lits_distinct i /\ enum_ok i o /\ no_fixed_cost i /\
  o_reserve_enc_vars o = false /\ alg_new (I := GI) ABiOptSat i o = Some s0 /\
  boosts_ok o bs /\ no_empty_core i o /\ oracle_ok E /\
  outs bs s0 = [Done true; Exit (EErr ErrLogger)] /\
  alg_solve ABiOptSat E lims_none (tries TI bs s0) = (Done tt, s') /\
  ~ exact_front i (s_front s').
Proof.
  pose proof rg_run as H. destruct (alg_new ABiOptSat ex_inst rg_opts) as [s0|] eqn:e0; [|contradiction].
  destruct H as (H1 & H2 & H3).
  destruct (alg_solve ABiOptSat (env true 300) lims_none (tries TI rg_bs s0)) as [r s'] eqn:e1.
  cbn [fst snd] in H2, H3. subst r.
  exists ex_inst, rg_opts, s0, rg_bs, (env true 300), s'.
  split; [apply ex_ok|]. split; [apply ex_distinct|]. split; [exact Logic.I|]. split; [apply ex_no_fixed|].
  split; [reflexivity|]. split; [exact e0|].
  split.
  { constructor.
    - cbn. split; [apply brute_ok|]. split; [apply brute_core_nodup|discriminate].
    - repeat (constructor; [cbn; pose proof (st_log_ok 22); tauto|]). constructor. }
  split; [apply st_live|]. split; [apply brute_ok|]. split; [exact H1|]. split; [exact e1|].
  intros [_ G]. pose proof (proj2 (G _) st_optimal) as Hin. rewrite H3 in Hin.
  destruct Hin as [Hin|[]]; discriminate.
Qed.
Print Assumptions C80_reset_after_plain_refuted.
