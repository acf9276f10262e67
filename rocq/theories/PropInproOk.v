(** * Solving after inprocessing (C87)

    C83 shows what goes wrong after inprocessing with MaxPre.  Here is when nothing goes wrong: if
    MaxPre keeps the clauses and only adds implied ones, returns the soft clauses in any order
    ([gentle]), and core boosting leaves something of every objective ([all_softs]), then a solver
    that has been core boosted with inprocessing solves the user's instance.  The theorems quantify
    over the encodings, the totalizer database, the way of forgetting its clauses, MaxPre, the
    instance, the options and the environments. *)
From Coq Require Import List Bool Arith Lia ZArith Permutation.
From Verif Require Import Base BaseLemmas Spec MTypes MKernel MOll EncSpec TotSpec ApiSpec Inst ExInst CbSpec MPrepro MMain
  PreSpec TotInst MMaxPre MInpro InproSpec InproOkSpec Wp Init Kern Struct Api ApiThm ApiTop CbTop CbApi CbHist Static InproThm InproOkTop.
From Verif Require PropCore PropInpro.
Import ListNotations.

(** inprocessing that answers "no solutions" is right *)
Theorem C87_infeasible : forall I (SP : enc_spec I) T (TS : tot_spec SP T) re ip E i o al s0 s1,
  inst_ok i -> lits_distinct i -> oracle_ok E -> core_nodup E -> reset_enc_ok TS re -> reset_keeps TS re ->
  gentle ip -> o_store_cnf o = true -> alg_new (I := I) al i o = Some s0 -> all_softs T E re s0 ->
  alg_core_boost_inpro T E re al ip s0 = (Done false, s1) -> forall a, ~ feasible (in_cls i) a.
Proof.
  intros I SP T TS re ip E i o al s0 s1 HI HD HO HN HR HK HG Hc Hn Hs Hrun.
  pose proof (wp_run _ _ _ _ (inpro_ok TS E HO HN re HR HK ip HG i o al s0 HI HD Hc Hn Hs)) as G.
  rewrite Hrun in G. exact G.
Qed.
Print Assumptions C87_infeasible.

Lemma ip_boosted_ok I (SP : enc_spec I) T (TS : tot_spec SP T) re ip E i o al s0 s1 :
  inst_ok i -> lits_distinct i -> oracle_ok E -> core_nodup E -> reset_enc_ok TS re -> reset_keeps TS re ->
  gentle ip -> o_store_cnf o = true -> alg_new (I := I) al i o = Some s0 -> all_softs T E re s0 ->
  alg_core_boost_inpro T E re al ip s0 = (Done true, s1) -> boosted (SP := SP) i o s0 s1.
Proof.
  intros HI HD HO HN HR HK HG Hc Hn Hs Hrun.
  pose proof (wp_run _ _ _ _ (inpro_ok TS E HO HN re HR HK ip HG i o al s0 HI HD Hc Hn Hs)) as G.
  rewrite Hrun in G. exact G.
Qed.
Lemma ip_bi I (SP : enc_spec I) i o al s0 s1 : inst_ok i -> alg_new (I := I) al i o = Some s0 ->
  boosted (SP := SP) i o s0 s1 -> (al = ABiOptSat -> no_fixed_cost i) -> al = ABiOptSat -> bi_start i s1.
Proof.
  intros HI Hn HB Hf ->. apply (after_bi i o HI s0 s1 HB); [exact (new_two i o s0 Hn)|now apply Hf].
Qed.

(** the bound kept for an objective, in the user's units, is the optimum of the objective *)
Theorem C87_ideal : forall I (SP : enc_spec I) T (TS : tot_spec SP T) re ip E i o al s0 s1,
  inst_ok i -> lits_distinct i -> oracle_ok E -> core_nodup E -> reset_enc_ok TS re -> reset_keeps TS re ->
  gentle ip -> o_store_cnf o = true -> alg_new (I := I) al i o = Some s0 -> all_softs T E re s0 ->
  alg_core_boost_inpro T E re al ip s0 = (Done true, s1) ->
  forall k r, nth_error (in_objs i) k = Some r -> fst r <> [] ->
  exists ob z, nth_error (p_objs (s_prob s1)) k = Some ob /\ externalize_one ob (obj_lb ob) = Some z /\ optimum i r z.
Proof.
  intros I SP T TS re ip E i o al s0 s1 HI HD HO HN HR HK HG Hc Hn Hs Hrun k r Hk Hne.
  pose proof (ip_boosted_ok I SP T TS re ip E i o al s0 s1 HI HD HO HN HR HK HG Hc Hn Hs Hrun) as HB.
  destruct (nth_error (p_objs (s_prob s1)) k) as [ob|] eqn:eo.
  - destruct (after_lb i o HI s0 s1 HB k r ob Hk eo Hne) as (z & H1 & H2). eauto.
  - apply nth_error_None in eo. rewrite (after_length i o s0 s1 HB) in eo.
    assert (k < length (in_objs i)) by (apply nth_error_Some; congruence). lia.
Qed.
Print Assumptions C87_ideal.

(** a solve that finishes has found the Pareto front of the user's instance *)
Theorem C87_exact : forall I (SP : enc_spec I) T (TS : tot_spec SP T) re ip E i o al s0 s1 E' l s',
  inst_ok i -> lits_distinct i -> enum_ok i o -> oracle_ok E -> core_nodup E -> reset_enc_ok TS re -> reset_keeps TS re ->
  gentle ip -> o_store_cnf o = true -> alg_new (I := I) al i o = Some s0 -> all_softs T E re s0 ->
  alg_core_boost_inpro T E re al ip s0 = (Done true, s1) -> (al = ABiOptSat -> no_fixed_cost i) ->
  oracle_ok E' -> lims_pos l -> alg_solve al E' l s1 = (Done tt, s') ->
  exact_front i (s_front s') /\ sound_front i (s_front s').
Proof.
  intros I SP T TS re ip E i o al s0 s1 E' l s' HI HD HE HO HN HR HK HG Hc Hn Hs Hrun Hf HO' Hl Hsol.
  pose proof (ip_boosted_ok I SP T TS re ip E i o al s0 s1 HI HD HO HN HR HK HG Hc Hn Hs Hrun) as HB.
  pose proof (from_first SP i o HI al s1 (after_start i o s0 s1 HB) (after_bound i o s0 s1 HB)
    (ip_bi I SP i o al s0 s1 HI Hn HB Hf) HE E' l HO' Hl) as G. now rewrite Hsol in G.
Qed.
Print Assumptions C87_exact.

(** however a solve ends, everything reported is right *)
Theorem C87_sound : forall I (SP : enc_spec I) T (TS : tot_spec SP T) re ip E i o al s0 s1 E' l,
  inst_ok i -> lits_distinct i -> enum_ok i o -> oracle_ok E -> core_nodup E -> reset_enc_ok TS re -> reset_keeps TS re ->
  gentle ip -> o_store_cnf o = true -> alg_new (I := I) al i o = Some s0 -> all_softs T E re s0 ->
  alg_core_boost_inpro T E re al ip s0 = (Done true, s1) -> (al = ABiOptSat -> no_fixed_cost i) ->
  oracle_ok E' -> lims_pos l ->
  sound_front i (s_front (snd (alg_solve al E' l s1))) /\ proper_exit i E' (fst (alg_solve al E' l s1)).
Proof.
  intros I SP T TS re ip E i o al s0 s1 E' l HI HD HE HO HN HR HK HG Hc Hn Hs Hrun Hf HO' Hl.
  pose proof (ip_boosted_ok I SP T TS re ip E i o al s0 s1 HI HD HO HN HR HK HG Hc Hn Hs Hrun) as HB.
  pose proof (from_first SP i o HI al s1 (after_start i o s0 s1 HB) (after_bound i o s0 s1 HB)
    (ip_bi I SP i o al s0 s1 HI Hn HB Hf) HE E' l HO' Hl) as G.
  destruct (alg_solve al E' l s1) as [[u|x] s']; cbn [fst snd].
  - split; [apply G|exact Logic.I].
  - split; [apply G|]. apply xok_proper. apply G.
Qed.
Print Assumptions C87_sound.

(** undisturbed, with enough time, it finishes *)
Theorem C87_terminates : forall I (SP : enc_spec I) T (TS : tot_spec SP T) re ip E i o al s0 s1 E',
  inst_ok i -> lits_distinct i -> enum_ok i o -> oracle_ok E -> core_nodup E -> reset_enc_ok TS re -> reset_keeps TS re ->
  gentle ip -> o_store_cnf o = true -> alg_new (I := I) al i o = Some s0 -> all_softs T E re s0 ->
  alg_core_boost_inpro T E re al ip s0 = (Done true, s1) -> (al = ABiOptSat -> no_fixed_cost i) ->
  oracle_ok E' -> calm E' -> iter_bound i < ev_fuel E' ->
  exists s', alg_solve al E' lims_none s1 = (Done tt, s').
Proof.
  intros I SP T TS re ip E i o al s0 s1 E' HI HD HE HO HN HR HK HG Hc Hn Hs Hrun Hf.
  pose proof (ip_boosted_ok I SP T TS re ip E i o al s0 s1 HI HD HO HN HR HK HG Hc Hn Hs Hrun) as HB.
  exact (from_term SP i o HI al s1 (after_start i o s0 s1 HB) (after_bound i o s0 s1 HB)
    (ip_bi I SP i o al s0 s1 HI Hn HB Hf) HE E').
Qed.
Print Assumptions C87_terminates.

(** and when all solutions are wanted, all of them are there *)
Theorem C87_enumerates_all : forall I (SP : enc_spec I) T (TS : tot_spec SP T) re ip E i o al s0 s1 E' l s',
  inst_ok i -> lits_distinct i -> enum_ok i o -> oracle_ok E -> core_nodup E -> reset_enc_ok TS re -> reset_keeps TS re ->
  gentle ip -> o_store_cnf o = true -> o_enum o = Solutions None ->
  alg_new (I := I) al i o = Some s0 -> all_softs T E re s0 ->
  alg_core_boost_inpro T E re al ip s0 = (Done true, s1) -> (al = ABiOptSat -> no_fixed_cost i) ->
  oracle_ok E' -> lims_pos l -> alg_solve al E' l s1 = (Done tt, s') ->
  forall nd, In nd (s_front s') -> NoDup (nd_sols nd) /\
    forall sol, In sol (nd_sols nd) <-> valid_solution (in_cls i) (in_objs i) (n_orig i) (nd_costs nd) sol.
Proof.
  intros I SP T TS re ip E i o al s0 s1 E' l s' HI HD HE HO HN HR HK HG Hc Hen Hn Hs Hrun Hf HO' Hl Hsol.
  pose proof (ip_boosted_ok I SP T TS re ip E i o al s0 s1 HI HD HO HN HR HK HG Hc Hn Hs Hrun) as HB.
  exact (from_enum_all SP i o HI al s1 (after_start i o s0 s1 HB)
    (ip_bi I SP i o al s0 s1 HI Hn HB Hf) HE E' l s' HO' Hl Hsol Hen).
Qed.
Print Assumptions C87_enumerates_all.

(** over histories of further calls, the reported front stays sound *)
Theorem C87_histories : forall I (SP : enc_spec I) T (TS : tot_spec SP T) re ip E i o al s0 s1 h,
  inst_ok i -> lits_distinct i -> al <> ABiOptSat -> o_enum o = NoEnum ->
  oracle_ok E -> core_nodup E -> reset_enc_ok TS re -> reset_keeps TS re ->
  gentle ip -> o_store_cnf o = true -> alg_new (I := I) al i o = Some s0 -> all_softs T E re s0 ->
  alg_core_boost_inpro T E re al ip s0 = (Done true, s1) -> run_ok h -> sound_front i (s_front (run al h s1)).
Proof.
  intros I SP T TS re ip E i o al s0 s1 h HI HD Ha Hen HO HN HR HK HG Hc Hn Hs Hrun Hh.
  pose proof (ip_boosted_ok I SP T TS re ip E i o al s0 s1 HI HD HO HN HR HK HG Hc Hn Hs Hrun) as HB.
  apply (from_history SP i o HI al s1 (after_start i o s0 s1 HB)); auto.
Qed.
Print Assumptions C87_histories.

(** inprocessing itself: it leaves early only for the documented reasons, except on infeasible
    instances when cores are minimized or trimmed (C26), and undisturbed it finishes *)
Theorem C87_exits : forall I (SP : enc_spec I) T (TS : tot_spec SP T) re ip E i o al s0 x s1,
  inst_ok i -> lits_distinct i -> oracle_ok E -> core_nodup E -> reset_enc_ok TS re -> reset_keeps TS re ->
  gentle ip -> o_store_cnf o = true -> alg_new (I := I) al i o = Some s0 -> all_softs T E re s0 ->
  alg_core_boost_inpro T E re al ip s0 = (Exit x, s1) ->
  ((forall a, ~ feasible (in_cls i) a) /\ (o_core_minimization o = true \/ o_core_trimming o = true)) \/
  proper_exit i E (Exit x).
Proof.
  intros I SP T TS re ip E i o al s0 x s1 HI HD HO HN HR HK HG Hc Hn Hs Hrun.
  pose proof (wp_run _ _ _ _ (inpro_ok TS E HO HN re HR HK ip HG i o al s0 HI HD Hc Hn Hs)) as G.
  rewrite Hrun in G. destruct G as [G|G]; [right; now apply xok_proper|left; exact G].
Qed.
Print Assumptions C87_exits.
Theorem C87_finishes : forall I (SP : enc_spec I) T (TS : tot_spec SP T) re ip E i o al s0,
  inst_ok i -> lits_distinct i -> oracle_ok E -> core_nodup E -> reset_enc_ok TS re -> reset_keeps TS re ->
  gentle ip -> o_store_cnf o = true -> alg_new (I := I) al i o = Some s0 -> all_softs T E re s0 ->
  calm E -> iter_bound i < ev_fuel E ->
  (exists a, feasible (in_cls i) a) \/ (o_core_minimization o = false /\ o_core_trimming o = false) ->
  exists b s1, alg_core_boost_inpro T E re al ip s0 = (Done b, s1).
Proof.
  intros I SP T TS re ip E i o al s0 HI HD HO HN HR HK HG Hc Hn Hs HC Hb Hd.
  apply (inpro_finishes TS E HO HN re HR HK ip HG i o al s0 HI HD Hc Hn Hs HC Hb).
  intros [H1 H2]. destruct Hd as [(a & Ha)|[H3 H4]]; [exact (H1 a Ha)|]. rewrite H3, H4 in H2.
  destruct H2; discriminate.
Qed.
Print Assumptions C87_finishes.

(** ** When inprocessing is refused *)
(** once [solve] has been called, whatever else was called, it is rejected and changes nothing *)
Theorem C87_rejected_after_solve : forall I (SP : enc_spec I) T (TS : tot_spec SP T) re ip al (s : st I) h E,
  (exists E' l, In (GStep (Solve E' l)) h) ->
  alg_core_boost_inpro T E re al ip (grun T al h s) = (Exit (EErr ErrApi), grun T al h s).
Proof.
  intros I SP T TS re ip al s h E H. pose proof (boost_rejected TS al h s E (mkCb false false) H) as G.
  unfold alg_core_boost, alg_core_boost_inpro, bind, gets in *.
  destruct (n_solve_calls (s_stats (grun T al h s)) =? 0) eqn:e; [exfalso|reflexivity].
  destruct H as (E' & l & Hin). pose proof (sn_solves _ _ _ (static_grun TS al h s)) as Hn.
  assert (Hg : gsolves h <> 0).
  { unfold gsolves. intros H0. apply length_zero_iff_nil in H0.
    assert (A : In (GStep (Solve E' l)) (filter (fun x => match x with GStep (Solve _ _) => true | _ => false end) h))
      by (apply filter_In; auto).
    rewrite H0 in A. destruct A. }
  apply Nat.eqb_eq in e. lia.
Qed.
Print Assumptions C87_rejected_after_solve.
(** without the stored clauses it never succeeds: it finds out that there are no solutions, is
    stopped, or is rejected *)
Theorem C87_needs_clauses : forall I (SP : enc_spec I) T (TS : tot_spec SP T) re ip al i o s0 h E,
  alg_new (I := I) al i o = Some s0 -> o_store_cnf o = false ->
  fst (alg_core_boost_inpro T E re al ip (grun T al h s0)) <> Done true.
Proof.
  intros I SP T TS re ip al i o s0 h E Hn Hc. destruct (new_static al i o s0 Hn) as (_ & N2 & _).
  pose proof (sn_opts _ _ _ (static_grun TS al h s0)) as G. rewrite N2 in G. revert G. generalize (grun T al h s0). intros s G.
  assert (W : wp (alg_core_boost_inpro T E re al ip) (fun b _ => b = false) (fun _ _ => True) s).
  { unfold alg_core_boost_inpro. apply wp_bind, wp_gets. apply wp_bind.
    destruct (_ =? 0); [apply wp_ret|exact Logic.I].
    assert (K : keeps (stP s) (stX s) None (kernel_core_boost T E)).
    { unfold kernel_core_boost. pose proof (static_struct (SP := SP) E s) as SO.
      assert (HP : forall (s1 : st I) p', stP s None s1 -> pstat (s_prob s1) p' -> stP s None (set_prob p' s1)).
      { intros s1 p' H []. destruct H. constructor; cbn in *; try congruence; lia. }
      apply (ck_bind _ _); [apply (ck_emit E _ _ _ SO)|]. intros _. apply (ck_bind _ _); [apply ck_gets|].
      intros m. apply (ck_bind _ _); [apply (ck_cbloop TS E _ _ _ SO HP)|]. intros x.
      destruct x; repeat first [apply ck_ret|apply (ck_emit E _ _ _ SO)|apply (ck_bind _ _); [|intros ?]]. }
    apply wp_bind. eapply wp_mono; [apply (K s), static_refl| |auto]. intros [rs|] s1 H1; [|now apply wp_ret].
    apply wp_bind. eapply wp_mono; [apply (so_check _ _ _ _ (static_struct (SP := SP) E s) None s1), H1| |auto].
    intros [] s2 H2. apply wp_bind. unfold inprocess. apply wp_bind, wp_gets. rewrite (sc_opts _ _ H2), G, Hc.
    apply wp_bind. exact Logic.I. }
  unfold wp in W. destruct (alg_core_boost_inpro T E re al ip s) as [[b|x] s']; cbn [fst]; [subst b|]; discriminate.
Qed.
Print Assumptions C87_needs_clauses.

(** ** The hypotheses can be met *)
Lemma tkeep_raw d : raw (tkeep d) = mkR (r_nodes (raw d)) (r_outs (raw d)) (r_pool (raw d)) (raux (raw d)).
Proof. apply skip_raw. Qed.
Lemma tkeep_enc : reset_enc_ok TS tkeep.
Proof.
  intros d. cbn. pose proof (tkeep_raw d) as Hr.
  assert (Hx : raux (raw (tkeep d)) = raux (raw d)) by (rewrite Hr; reflexivity).
  split; [apply text_nodes; now rewrite Hr|]. split; [intros v; rewrite Hr; auto|]. split; [intros v; rewrite Hx; auto|].
  split; [intros v [H1 H2]; split; [rewrite Hr in H1; exact H1|rewrite <- Hx; exact H2]|]. split.
  - intros m He i j w Hw. rewrite Hr in *. apply He. exact Hw.
  - unfold rcls, rbuilt. rewrite Hr. cbn [r_outs r_skip]. rewrite <- (app_nil_r []).
    assert (G : forall l, incl (map snd l) (raux (raw d)) -> filter (fun x : nat * nat * nat => negb (mem_nat (snd x) (raux (raw d)))) l = []).
    { induction l as [|x l IH]; intros H; [reflexivity|]. cbn [filter].
      rewrite (proj2 (mem_nat_iff _ _) (H _ (or_introl eq_refl))). cbn [negb]. apply IH. intros v Hv. apply H. now right. }
    rewrite G; [reflexivity|apply incl_refl].
Qed.
Lemma put_cases d r : raw (put d r) = r \/ put d r = d.
Proof. unfold put. destruct (Bool.bool_dec (rok r) true); [now left|now right]. Qed.
Lemma define_find d id k nv d' l cl nv' id0 k0 x : tdefine d id k nv = (d', l, cl, nv') ->
  find (key_eq id0 k0) (r_outs (raw d)) = Some x -> find (key_eq id0 k0) (r_outs (raw d')) = Some x.
Proof.
  unfold tdefine. intros H Hf. destruct (find (key_eq id k) (r_outs (raw d))) as [y|] eqn:ey.
  - destruct (mem_nat _ _); injection H as <- _ _ _; [|exact Hf]. rewrite skip_raw. exact Hf.
  - destruct (talloc _ _) as [v n]. injection H as <- _ _ _.
    match goal with |- context[put d ?r] => destruct (put_cases d r) as [->| ->] end; [|exact Hf].
    cbn [r_outs find]. destruct (key_eq id0 k0 (id, k, v)) eqn:e; [|exact Hf].
    unfold key_eq in e. cbn [fst snd] in e. apply andb_true_iff in e. destruct e as [e1 e2]. apply Nat.eqb_eq in e1, e2. subst.
    congruence.
Qed.
Lemma tkeep_keeps : reset_keeps TS tkeep.
Proof.
  intros d d1 id k l nv d2 l2 cl nv' Ho Hg Hd. cbn in Ho, Hd. unfold rout in Ho.
  destruct (find (key_eq id k) (r_outs (raw d))) as [x|] eqn:ef; [|discriminate].
  destruct (mem_nat _ _); [discriminate|]. injection Ho as <-.
  assert (G : find (key_eq id k) (r_outs (raw d1)) = Some x).
  { clear Hd. induction Hg as [|d1 i j n d3 l3 c3 n3 Hg IH H1 H2 H3].
    - rewrite tkeep_raw. exact ef.
    - eapply define_find; eauto. }
  unfold tdefine in Hd. rewrite G in Hd. destruct (mem_nat _ _); now injection Hd as _ <- _ _.
Qed.

(** MaxPre that returns its input, and one that turns everything around and repeats a clause *)
Lemma id_gentle : gentle PropInpro.id_ip.
Proof.
  intros cls os. cbn. split; [apply incl_refl|]. split; [auto|]. split; [apply incl_refl|].
  induction os; constructor; auto.
Qed.
Definition turn_ip : inprocessor := fun cls os =>
  mkIp (mkMp (rev cls ++ match cls with c :: _ => [c ++ c] | [] => [] end) (map (fun o => (rev (fst o), snd o)) os) (fun s => s)) (length cls) 0.
Lemma turn_gentle : gentle turn_ip.
Proof.
  intros cls os. cbn. split; [intros c Hc; apply in_or_app; left; now apply -> in_rev|]. split; [|split].
  - intros m Hm c Hc. apply in_app_or in Hc. destruct Hc as [Hc|Hc].
    + apply Hm. now apply in_rev.
    + destruct cls as [|c0 cls]; [destruct Hc|]. destruct Hc as [<-|[]]. specialize (Hm c0 (or_introl eq_refl)).
      unfold clause_true in *. rewrite existsb_app, Hm. reflexivity.
  - intros v Hv. unfold cls_vars in *. apply in_flat_map in Hv. destruct Hv as (c & Hc & Hv). apply in_flat_map.
    apply in_app_or in Hc. destruct Hc as [Hc|Hc].
    + exists c. split; [now apply in_rev|exact Hv].
    + destruct cls as [|c0 cls]; [destruct Hc|]. destruct Hc as [<-|[]]. exists c0. split; [now left|].
      unfold lits_vars in *. rewrite map_app in Hv. apply in_app_or in Hv. tauto.
  - induction os; constructor; auto. cbn. split; [apply Permutation_rev|reflexivity].
Qed.

(** the example instance: both objectives keep soft clauses, and both kinds of MaxPre work *)
Definition ok_opts := PropCore.cb_kopts (Solutions None) true false false false.
Definition ok_new al i : option (list clause * list soft_obj * list nat) :=
  match alg_new (I := GI) al i ok_opts with Some s => handed TI (env true 300) tkeep s | None => None end.
Example C87_example_softs al s : alg_new (I := GI) al ex_inst ok_opts = Some s -> all_softs TI (env true 300) tkeep s.
Proof.
  intros Hn cls os offs Hh.
  assert (G : match ok_new al ex_inst with Some (_, os, _) => forallb (fun o : soft_obj => match fst o with [] => false | _ => true end) os | None => true end = true)
    by (destruct al; vm_compute; reflexivity).
  unfold ok_new in G. rewrite Hn, Hh in G. rewrite forallb_forall in G. apply Forall_forall. intros x Hx.
  specialize (G x Hx). destruct (fst x); discriminate.
Qed.
Definition ok_run al i ip : option (res bool * res unit * list (list Z * Z)) :=
  match alg_new (I := GI) al i ok_opts with
  | Some s =>
      match alg_core_boost_inpro TI (env true 300) tkeep al ip s with
      | (Done true, s1) => let '(r, s2) := alg_solve al (env false 300) lims_none s1 in
          Some (Done true, r, map (fun nd => (nd_costs nd, Z.of_nat (length (nd_sols nd)))) (s_front s2))
      | (r, s1) => Some (r, Done tt, [])
      end
  | None => None
  end.
Example C87_example : map (fun al => ok_run al ex_inst PropInpro.id_ip) [APMinimal; ABiOptSat] =
  map (fun f => Some (Done true, Done tt, f))
    [[([1; 1], 1); ([3; 0], 3); ([5; (-1)], 2)]; [([1; 1], 1); ([3; 0], 3); ([5; (-1)], 2)]]%Z.
Proof. vm_compute. reflexivity. Qed.
Definition okv_inst : inst := mkInst [[pos 0; pos 1]; [pos 1; pos 2]; [pos 0; pos 2]]
  [([(pos 0, 3); (pos 1, 2); (pos 2, 2)], 0%Z); ([(neg 0, 2); (neg 1, 1); (neg 2, 2)], 0%Z)] (mkVm 3 2 2).
Example C87_example_turned : map (fun al => ok_run al okv_inst turn_ip) [APMinimal; ALowerBounding; ABiOptSat] =
  map (fun f => Some (Done true, Done tt, f))
    [[([4; 2], 1); ([5; 1], 1); ([7; 0], 1)]; [([5; 1], 1); ([4; 2], 1); ([7; 0], 1)]; [([4; 2], 1); ([5; 1], 1); ([7; 0], 1)]]%Z.
Proof. vm_compute. reflexivity. Qed.
(** an instance with weights in whose reformulation several totalizers stay partly relaxed *)
Definition okw_inst : inst := mkInst [[pos 0; pos 1]; [pos 1; pos 2]; [pos 0; pos 2]; [pos 3; pos 2; pos 0]; [pos 3; pos 1]]
  [([(pos 0, 4); (pos 1, 3); (pos 2, 3); (pos 3, 2)], 0%Z); ([(neg 0, 2); (neg 1, 1); (neg 2, 2); (neg 3, 1)], 0%Z)] (mkVm 4 3 3).
Example C87_weights_handed : match ok_new APMinimal okw_inst with Some (cls, os, offs) => Some (length cls, os, offs) | None => None end =
  Some (24, [([([neg 25], 1); ([neg 30], 2); ([neg 28], 1); ([neg 29], 1); ([neg 31], 1)], 0%Z);
             ([([pos 0], 2); ([pos 1], 1); ([pos 2], 2); ([pos 3], 1)], 0%Z)], [6; 0]).
Proof. vm_compute. reflexivity. Qed.
(** refusals *)
Definition ok_late (o : kopts) (h : list gstep) : option (res bool) :=
  match alg_new (I := GI) APMinimal ex_inst o with
  | Some s => Some (fst (alg_core_boost_inpro TI (env true 300) tkeep APMinimal PropInpro.id_ip (grun TI APMinimal h s)))
  | None => None
  end.
Example C87_refused :
  (ok_late ok_opts [GStep (Solve (env true 300) lims_none)],
   ok_late (mkOpts NoEnum true true false false false false default_blocking_clause) [],
   ok_late ok_opts []) =
  (Some (Exit (EErr ErrApi)), Some (Exit (EErr ErrApi)), Some (Done true)).
Proof. vm_compute. reflexivity. Qed.
(** what other results of MaxPre lead to: here it fixes the last output of a totalizer, or all
    outputs, to false and drops their soft clauses *)
Definition cut_ip (keep : nat) : inprocessor := fun cls os =>
  let cut (o : soft_obj) := if 3 <? length (fst o) then (firstn keep (fst o), snd o) else o in
  let gone (o : soft_obj) := if 3 <? length (fst o) then map fst (skipn keep (fst o)) else [] in
  mkIp (mkMp (cls ++ flat_map gone os) (map cut os) (fun s => s)) (length cls) 0.
Definition cut_inst : inst := mkInst (in_cls ex_inst) [(fst ex_o1, 7%Z); ex_o2] ex_vm.
Definition ok_encs al i ip : option (res bool * list (bool * Z * nat) * list (option (nat * nat))) :=
  match alg_new (I := GI) al i ok_opts with
  | Some s =>
      let '(r, s1) := alg_core_boost_inpro TI (env true 300) tkeep al ip s in
      Some (r, map (fun ob => (obj_is_constant ob, obj_offset ob, obj_lb ob)) (p_objs (s_prob s1)),
            map (fun e => match e with EConstant => None | _ => Some (oe_offset e, Sem.oe_cap GS e) end) (p_encs (s_prob s1)))
  | None => None
  end.
Example C87_weights : ok_encs APMinimal okw_inst turn_ip = Some (Done true, [(false, 0%Z, 6); (false, 0%Z, 0)], [Some (6, 12); Some (0, 6)]).
Proof. vm_compute. reflexivity. Qed.
Example C87_cut : map (fun k => ok_encs APMinimal cut_inst (cut_ip k)) [4; 3; 2; 1; 0] =
  map (fun c => Some (Done true, [(false, 7%Z, 1); (false, (-1)%Z, 0)], [Some (1, c); Some (0, 3)])) [5; 4; 3; 2] ++
  [Some (Done true, [(true, 8%Z, 1); (false, (-1)%Z, 0)], [Some (0, 3)])].
Proof. vm_compute. reflexivity. Qed.
(** here it fixes the first output to true and puts its weight into the constant *)
Definition pay_ip : inprocessor := fun cls os =>
  let pay (o : soft_obj) := match fst o with (_, w) :: r => if 2 <? length r then (r, (snd o + Z.of_nat w)%Z) else o | [] => o end in
  let fix1 (o : soft_obj) := match fst o with ([l], _) :: r => if 2 <? length r then [[lnot l]] else [] | _ => [] end in
  mkIp (mkMp (cls ++ flat_map fix1 os) (map pay os) (fun s => s)) (length cls) 0.
Example C87_paid : map (fun al => (ok_encs al cut_inst pay_ip, ok_run al cut_inst pay_ip)) [APMinimal; ALowerBounding; ABiOptSat] =
  map (fun f => (Some (Done true, [(false, 7%Z, 1); (false, (-1)%Z, 0)], [Some (2, 5); Some (0, 3)]), Some (Done true, Done tt, f)))
    [[([9; 1], 2); ([10; 0], 2); ([12; (-1)], 2)]; [([10; 0], 2); ([9; 1], 2); ([12; (-1)], 2)]; [([9; 1], 2); ([10; 0], 2); ([12; (-1)], 2)]]%Z.
Proof. vm_compute. reflexivity. Qed.
