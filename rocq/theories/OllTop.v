(** * The reformulated objective has the values of the objective *)
From Coq Require Import List Bool Arith Lia ZArith.
From Verif Require Import Base BaseLemmas Spec MTypes MKernel MPMinimal MLowerBounding MBiOptSat MOll
  EncSpec TotSpec Wp Sem Kern Yield PMin PMinTop LBTop Linsu BiTop Init ApiSpec Ext Blk Struct Book Api
  ApiThm FeasInv Intr ApiTop OllSide OllData OllThm OllRun OllRelax OllMain CbMerge CbTop CbSpec CbApi CbHist.
Import ListNotations.

Lemma count_above v : forall n first, length (filter (fun k => k <? v) (seq first n)) = Nat.min n (v - first).
Proof.
  induction n as [|n IH]; intros first; [reflexivity|]. cbn [seq filter].
  destruct (Nat.ltb_spec first v); cbn [length]; rewrite IH; lia.
Qed.
Lemma wk_wsum f a ls : (forall l w, In (l, w) ls -> f l = if lit_true a l then 1 else 0) -> wk f ls = wsum a ls.
Proof.
  induction ls as [|[l w] ls IH]; intros H; [reflexivity|]. rewrite wk_cons, IH.
  - rewrite (H l w (or_introl eq_refl)). cbn [wsum]. destruct (lit_true a l); cbn; lia.
  - intros l' w' Hin. apply (H l' w'). now right.
Qed.
Lemma wk_wsum_le f a ls : (forall l w, In (l, w) ls -> f l <= if lit_true a l then 1 else 0) -> wk f ls <= wsum a ls.
Proof.
  induction ls as [|[l w] ls IH]; intros H; [reflexivity|]. rewrite wk_cons.
  specialize (IH (fun l' w' Hin => H l' w' (or_intror Hin))). specialize (H l w (or_introl eq_refl)).
  cbn [wsum]. destruct (lit_true a l); nia.
Qed.

Section OllTop.
  Context {I : enc_impl} {SP : enc_spec I} {T : tot_impl I} (TS : tot_spec SP T).
  Notation st := (st I).
  Variables (i : inst) (o : kopts).
  Hypothesis HI : inst_ok i.
  Hypothesis HD : lits_distinct i.

  Lemma oll_value E s k r ob rf d sol s' : oracle_ok E -> core_nodup E -> ready (SP := SP) i o s ->
    nth_error (in_objs i) k = Some r -> nth_error (p_objs (s_prob s)) k = Some ob -> fst r <> [] ->
    oll T E (reform_of ob) (ti_new T) s = (Done (rf, d, Some sol), s') ->
    (forall a, feasible (in_cls i) a -> tb_exact SP T TS d a ->
       externalize_one ob (reform_value TS rf d a) = Some (obj_value r a)) /\
    (forall a, sat a (p_cls (s_prob s')) -> icost ob a <= reform_value TS rf d a) /\
    (exists z, externalize_one ob (rf_offset rf) = Some z /\ optimum i r z).
  Proof.
    intros HO HN HR Hr Hob Hne Hrun.
    pose proof (cb_init TS i o s HR) as HC.
    destruct (sim_raw _ _ _ _ (sa_objs _ _ _ _ (rd_start _ _ _ HR)) Hob) as (r' & Hr' & Hs).
    assert (r' = r) by congruence. subst r'.
    destruct (sim_nth _ _ _ _ (cb_objs _ _ _ _ _ HC) Hob) as (ob' & Hob' & Hsim).
    destruct (lb0_iter _ _ Hsim) as [Hiter Hcon].
    assert (Hin : In ob' (build_objs 0 (in_objs i))) by (eapply nth_error_In; eauto).
    destruct (bos_total i HI (iter_bound i) (two_le_bound i) ob' Hin) as [Ht1 Ht2].
    assert (Hok : obj_ok r).
    { pose proof (io_ok _ HI) as G. rewrite Forall_forall in G. apply G. eapply nth_error_In; eauto. }
    assert (Hfit : obj_fits r).
    { pose proof (io_fits _ HI) as G. rewrite Forall_forall in G. apply G. eapply nth_error_In; eauto. }
    assert (ec : obj_is_constant ob = false).
    { rewrite (lb0_const _ _ Hs). destruct (obj_is_constant (obj_new _ _ _)) eqn:e; [|reflexivity].
      apply const_raw in e. contradiction. }
    assert (W : wp (oll T E (reform_of ob) (ti_new T)) (Qend TS (Feas i) ob (vm_max_enc (in_vm i)) [] s)
      (XX TS E (Feas i) (vm_max_enc (in_vm i)) [] s (iter_bound i)) s).
    { eapply (wp_oll TS E HO HN (Feas i) ob (vm_max_enc (in_vm i)) [] s (iter_bound i)).
      - rewrite Hiter. pose proof (two_le_bound i). lia.
      - rewrite Hiter. exact Ht2.
      - exact ec.
      - rewrite Hiter. now apply (obj_distinct i HD).
      - intros v Hv. rewrite <- (cb_me _ _ _ _ _ HC).
        eapply (wf_objs _ _ _ (side_wf _ _ _ _ (cb_side _ _ _ _ _ HC))); [eapply nth_error_In; eauto|exact Hv].
      - reflexivity.
      - constructor; [apply HC| |apply (side_new _ _ _ _ (cb_side _ _ _ _ _ HC))|apply tb_new_free].
        constructor; auto using fr_refl. apply HC. }
    apply wp_run in W. rewrite Hrun in W.
    destruct W as (HF & HSd & _ & _ & Hout).
    assert (Hlater : forall a, list_sum (map (fun lr => rd_weight (snd lr) * later_outputs TS d (snd lr) a) (rf_refs rf))
      = rsum (gv TS d (Some a)) (rf_refs rf)).
    { intros a. unfold rsum. f_equal. apply map_ext_in. intros [l rd] Hl. destruct (fi_ref _ _ _ _ _ _ HF l rd Hl) as (A & B & _).
      unfold rterm, later_outputs. cbn [snd OllThm.gv]. f_equal. rewrite count_above.
      pose proof (tb_val_max SP T TS d (rd_root rd) a (tb_int_node _ _ _ _ _ A)). lia. }
    split; [|split].
    - intros a Ha He. rewrite (lb0_ext _ _ Hs). rewrite <- (externalize_value r k a Hok Hfit). f_equal.
      rewrite <- (lb0_icost _ _ a Hs). pose proof (fi_id _ _ _ _ _ _ HF (Some a) Ha) as G. cbn [OllThm.tg] in G.
      rewrite G. unfold reform_value. rewrite Hlater. do 2 f_equal. symmetry. apply wk_wsum.
      intros l w Hl. unfold kvo, kv. destruct (hm_get l (rf_refs rf)) as [rd|] eqn:e; [|reflexivity].
      apply hm_get_in in e. cbn [OllThm.gv]. now rewrite (tb_out_exact SP T TS d _ _ l a (Hout l rd e) He).
    - intros a Ha. pose proof (side_base _ _ _ _ HSd) as HB.
      pose proof (fi_id _ _ _ _ _ _ HF (Some a) (bs_sound _ _ _ _ HB a Ha)) as G. cbn [OllThm.tg] in G.
      rewrite G. unfold reform_value. rewrite Hlater. apply Nat.add_le_mono_r, Nat.add_le_mono_l. apply wk_wsum_le.
      intros l w Hl. unfold kvo, kv. destruct (hm_get l (rf_refs rf)) as [rd|] eqn:e; [|reflexivity].
      apply hm_get_in in e. cbn [OllThm.gv]. destruct (Nat.ltb_spec (rd_oidx rd) (tb_val SP T TS d (rd_root rd) a)); [|lia].
      rewrite (tb_out_sound SP T TS d _ _ l a (Hout l rd e)); [lia| |assumption].
      intros c Hc. apply Ha. eapply (bs_cls _ _ _ _ HB); [|exact Hc]. now left.
    - destruct (fi_opt _ _ _ _ _ _ HF) as (a & Ha & Hc). exists (obj_value r a). split.
      + rewrite <- Hc, (lb0_ext _ _ Hs), (lb0_icost _ _ a Hs). now apply externalize_value.
      + split; [exists a; auto|]. intros b Hb. apply (icost_le r k a b Hok).
        rewrite <- (lb0_icost _ _ a Hs), <- (lb0_icost _ _ b Hs), Hc.
        pose proof (fi_id _ _ _ _ _ _ HF (Some b) Hb) as G. cbn [OllThm.tg] in G. lia.
  Qed.
End OllTop.
