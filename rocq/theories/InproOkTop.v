(** * Core boosting with harmless inprocessing *)
From Coq Require Import List Bool Arith Lia ZArith Permutation.
From Verif Require Import Base BaseLemmas Spec MTypes MKernel MPMinimal MLowerBounding MBiOptSat
  EncSpec Wp Sem Kern Yield PMin PMinTop BiTop Init ApiSpec Ext Blk Api Struct Book ApiTop MOll TotSpec
  OllSide OllData OllThm OllRun OllMain CbMerge CbTop CbSpec CbApi MPrepro PreSpec MMaxPre MaxPreSpec
  MInpro InproSpec PreProofThm PreproThm MaxPreThm InproThm InproOkSpec InproSlots InproOk.
Import ListNotations.

Lemma soft_perm xs softs : Permutation (map soft_of xs) softs ->
  exists ys, softs = map soft_of ys /\ Permutation xs ys.
Proof. intros H. apply Permutation_sym, Permutation_map_inv in H. exact H. Qed.

Section Parts.
  Context {I : enc_impl} {SP : enc_spec I} {T : tot_impl I} (TS : tot_spec SP T).
  Notation db := (ti_db T).
  Notation st := (st I).
  Variable E : environ.
  Variable F : asg -> Prop.
  Variable me : nat.
  Variable re : db -> db.

  Lemma slots_perm d ob rf d' outs xs ys : Permutation xs ys -> Slots TS F me re d ob rf d' outs xs ->
    Slots TS F me re d ob rf d' outs ys.
  Proof.
    intros HP [S1 S2 S3 S4 S5 S6]. pose proof (Permutation_sym HP) as HP'.
    assert (Hi : forall y, In y ys -> In y xs) by (intros y; now apply Permutation_in).
    constructor.
    - exact S1.
    - rewrite Forall_forall in *. auto.
    - eapply Permutation_NoDup; [|exact S3]. unfold keys. now apply Permutation_flat_map.
    - intros l w rd l' w' rd' H1 H2. exact (S4 _ _ _ _ _ _ (Hi _ H1) (Hi _ H2)).
    - intros l w rd j H1 H2 H3. destruct (S5 _ _ _ j (Hi _ H1) H2 H3) as (l' & H). exists l'. now apply (Permutation_in _ HP).
    - intros o Ho. rewrite (S6 o Ho). f_equal. now apply svals_perm.
  Qed.

  (** one objective *)
  Definition skept (ob : objective) (x : soft_obj * ip_kept T) : Prop :=
    snd (fst x) = 0%Z /\ fst (fst x) <> [] /\ (forall v, tb_leafv SP T TS (ik_db T (snd x)) v -> v <= me) /\
    exists rf d xs, ik_off T (snd x) = rf_offset rf /\ fst (fst x) = map soft_of xs /\
      Slots TS F me re d ob rf (ik_db T (snd x)) (ik_outs T (snd x)) xs.
  Definition encfor (x : objective * ip_kept T) (e : obj_enc I) : Prop :=
    Encok TS F (fst x) me (ik_db T (snd x)) e (ik_off T (snd x)).
  Lemma build_ok : forall os kept obs k s, Forall2 skept obs (combine os kept) -> length os = length kept -> lims_ok s ->
    wp (ip_build T E k os kept) (fun es s' => quiet s s' /\ lims_ok s' /\ Forall2 encfor (combine obs kept) es)
      (fun x _ => good_exit x) s.
  Proof.
    induction os as [|[softs z] os IH]; intros [|ik kept] obs k s HF Hlen HL; try discriminate; cbn [ip_build combine] in *.
    - inversion HF; subst. apply wp_ret. split; [apply quiet_refl|]. split; [exact HL|constructor].
    - inversion HF as [|ob ? obs' ? (H1 & H2 & H3 & rf & d & xs & H4 & H5 & H6) HF']; subst. cbn [fst snd] in *. subst z softs.
      apply wp_bind, wp_guard; [reflexivity|].
      assert (Hxs : xs <> []) by (intros ->; now apply H2).
      destruct (map soft_of xs) as [|c0 cs0] eqn:ex; [now destruct H2|]. rewrite <- ex in *. clear c0 cs0 ex.
      apply wp_bind. eapply wp_mono with (X := fun x _ => good_exit x).
      + apply wp_foldM with (P := fun pre x s' => s' = s /\ exists px post, xs = px ++ post /\ pre = map soft_of px /\
          JI TS me re d (ik_db T ik) px x).
        * intros pre y post x s' Hl (-> & px & qx & E1 & E2 & HJ).
          assert (Hq : map soft_of qx = y :: post).
          { rewrite E1, map_app, <- E2 in Hl. now apply app_inv_head in Hl. }
          destruct qx as [|q qx]; [discriminate|]. cbn [map] in Hq. injection Hq as <- <-.
          eapply wp_mono; [exact (soft_step TS F me re d ob rf (ik_db T ik) (ik_outs T ik) xs H6 px q qx x (fun x _ => good_exit x) s E1 HJ)| |auto].
          intros x' s' [-> HJ']. split; [reflexivity|]. exists (px ++ [q]), qx. rewrite <- app_assoc. split; [exact E1|].
          split; [rewrite map_app, <- E2; reflexivity|exact HJ'].
        * split; [reflexivity|]. exists [], xs. split; [reflexivity|]. split; [reflexivity|]. constructor.
          -- intros id Hn; repeat split; auto.
          -- apply same_refl.
          -- exact H3.
          -- intros c [].
          -- split; constructor.
          -- intros l rd [].
          -- intros o. reflexivity.
          -- congruence.
        * intros x' s' H. exact H.
      + intros [[[d1 cs] ts] mlw] s' (-> & px & post & E1 & E2 & HJ).
        assert (Hpx : px = xs).
        { assert (length px = length xs) by (rewrite <- (map_length soft_of px), <- E2; apply map_length).
          rewrite E1 in H. rewrite app_length in H. destruct post; [now rewrite app_nil_r in E1|cbn in H; lia]. }
        subst px. clear E1 E2.
        apply wp_bind, wp_log_start; [exact HL| |auto]. intros s1 Hq1 HL1.
        apply wp_bind. eapply wp_mono with (X := fun x _ => good_exit x).
        * apply (tots_steps TS F me re d ob rf (ik_db T ik) (ik_outs T ik) xs H6 mlw s1 (fun x _ => good_exit x) ts cs).
          apply (ji_ts _ _ _ _ _ _ _ HJ).
        * intros cs' s2 [-> (new & -> & Hn)].
          apply wp_bind, wp_check_termination; [exact HL1| |auto]. intros s2 Hq2 HL2.
          rewrite Nat.add_0_r, H4.
          apply wp_bind, (final_cons TS F me re d ob rf (ik_db T ik) (ik_outs T ik) xs H6 d1 cs ts mlw new Hxs HJ Hn).
          intros e He. apply wp_bind, wp_log_end; [exact HL2| |auto]. intros s3 Hq3 HL3.
          apply wp_bind. eapply wp_mono; [apply (IH kept obs' (S k) s3 HF'); [cbn in Hlen; lia|exact HL3]| |auto].
          intros es s4 (Hq4 & HL4 & Hes). apply wp_ret. split; [|split; [exact HL4|]].
          -- eapply quiet_trans; [exact Hq1|]. eapply quiet_trans; [exact Hq2|]. eapply quiet_trans; [exact Hq3|exact Hq4].
          -- constructor; [|exact Hes]. unfold encfor. cbn [fst snd]. rewrite H4. exact He.
        * auto.
      + auto.
  Qed.

  (** the handed objectives *)
  Hypothesis HR : reset_enc_ok TS re.
  Hypothesis HK : reset_keeps TS re.
  Definition crel (ob : objective) (x : soft_obj * ip_kept T) : Prop :=
    snd (fst x) = 0%Z /\ (fst (fst x) <> [] -> obj_is_constant ob = false /\
    exists rf d xs, ik_off T (snd x) = rf_offset rf /\ fst (fst x) = map soft_of xs /\
      Slots TS F me re d ob rf (ik_db T (snd x)) (ik_outs T (snd x)) xs).
  Lemma collect_slots : forall rs obs ds1 cnf nx,
    Forall2 (fun ob x => fok TS F me ob (fst x) (snd x) /\ refs_out TS (fst x) (snd x)) obs rs ->
    Hand TS F me cnf nx (ds1 ++ map (fun x => re (snd x)) rs) ->
    let '(cls, nx', os, kept) := ip_collect T re rs cnf nx in
    Hand TS F me cls nx' (ds1 ++ map (ik_db T) kept) /\ length os = length rs /\ length kept = length rs /\
    map (ik_off T) kept = map (fun x => rf_offset (fst x)) rs /\ Forall2 crel obs (combine os kept).
  Proof.
    induction rs as [|[rf d] rs IH]; intros obs ds1 cnf nx Hobs HH; cbn [ip_collect].
    - inversion Hobs; subst. split; [exact HH|]. repeat split; constructor.
    - inversion Hobs as [|ob x obs' rs' [Hf Ho] Hobs']; subst. cbn [fst snd map] in *.
      pose proof (ipobj_ok TS F me re HR ds1 _ ob rf d cnf nx Hf HH) as G.
      assert (Hc : let '(d', cnf', nx', outs, softs) := ip_obj T re rf d cnf nx in
        softs <> [] -> obj_is_constant ob = false /\ exists xs, softs = map soft_of xs /\ Slots TS F me re d ob rf d' outs xs).
      { destruct (obj_is_constant ob) eqn:ec.
        - unfold fok in Hf. rewrite ec in Hf. destruct Hf as (_ & _ & Hi). unfold ip_obj. rewrite Hi. cbn [in_iter fold_left].
          intros H. now destruct H.
        - unfold fok in Hf. rewrite ec in Hf.
          pose proof (ipobj_slots TS F me re HR HK ds1 _ d ob rf Hf Ho cnf nx HH) as K.
          destruct (ip_obj T re rf d cnf nx) as [[[[d' cnf'] nx'] outs] softs]. intros _. split; [reflexivity|exact K]. }
      destruct (ip_obj T re rf d cnf nx) as [[[[d' cnf'] nx'] outs] softs]. destruct G as (G1 & G2 & G3).
      specialize (IH obs' (ds1 ++ [d']) cnf' nx' Hobs'). rewrite <- app_assoc in IH. specialize (IH G1).
      destruct (ip_collect T re rs cnf' nx') as [[[cls nx2] os] kept]. destruct IH as (K1 & K2 & K3 & K4 & K5).
      rewrite <- app_assoc in K1. cbn [map combine length ik_db ik_off]. split; [exact K1|]. split; [lia|]. split; [lia|].
      split; [now rewrite K4|]. constructor; [|exact K5]. split; [reflexivity|]. cbn [fst snd ik_off ik_db ik_outs].
      intros Hs. destruct (Hc Hs) as [Hc1 (xs & Hc2 & Hc3)]. split; [exact Hc1|]. exists rf, d, xs. auto.
  Qed.
End Parts.

Lemma wp_eq {I A} (c : M I A) Q X s : wp c Q X s -> wp c (fun r s' => Q r s' /\ c s = (Done r, s')) X s.
Proof. unfold wp. destruct (c s) as [[r|x] s']; auto. Qed.

(** Undisturbed inprocessing only fails by a panic, an error or lack of fuel *)
Section Calm.
  Context {I : enc_impl} {SP : enc_spec I} {T : tot_impl I} (TS : tot_spec SP T).
  Notation st := (st I).
  Notation M := (M I).
  Variable E : environ.
  Hypothesis HC : calm E.
  Let SO := calm_struct SP E HC.
  Notation ckc := (ck (I := I) calmP calmX).
  Lemma cc_modify f : (forall s : st, s_lims (f s) = s_lims s) -> ckc (modify f).
  Proof. intros H s Hs. apply wp_modify. unfold calmP in *. now rewrite H. Qed.
  Lemma cc_pr : forall (s : st) p', calmP None s -> pstat (s_prob s) p' -> calmP None (set_prob p' s).
  Proof. intros s p' H _. exact H. Qed.
  Ltac cct :=
    repeat first
      [ apply ck_ret | apply (ck_emit E _ _ _ SO) | apply (ck_check E _ _ _ SO) | apply (ck_guard E _ _ _ SO)
      | apply (ck_unwrap E _ _ _ SO) | apply (ck_add_clauses E _ _ _ SO) | apply ck_gets
      | apply (ck_throw E _ _ _ SO); exact Logic.I
      | apply cc_modify; intros; reflexivity
      | apply ck_bind; [|intros ?]
      | apply ck_foldM; intros ? ?
      | match goal with |- ckc (let '(_, _) := ?x in _) => destruct x end
      | match goal with |- ckc (if ?b then _ else _) => destruct b end
      | match goal with |- ckc (match ?b with _ => _ end) => destruct b end ].
  Lemma cc_build : forall os kept k, ckc (ip_build T E k os kept).
  Proof.
    induction os as [|[softs z] os IH]; intros [|ik kept] k; cbn [ip_build]; try solve [cct].
    apply ck_bind; [cct|]. intros _. destruct softs as [|c softs].
    - apply ck_bind; [cct|]. intros ob. apply ck_bind; [cct|]. intros ob'. apply ck_bind; [cct|]. intros _. apply IH.
    - apply ck_bind; [unfold ip_soft; cct|]. intros [[[d cs] ts] mlw]. apply ck_bind; [cct|]. intros _.
      apply ck_bind; [unfold ip_tot; cct|]. intros cs'. apply ck_bind; [cct|]. intros _.
      apply ck_bind; [unfold merge_cons; cct|]. intros e. apply ck_bind; [cct|]. intros _.
      apply ck_bind; [apply IH|]. intros r. cct.
  Qed.
  Lemma calm_inpro re al ip : keeps (I := I) calmP calmX None (alg_core_boost_inpro T E re al ip).
  Proof.
    change (ckc (alg_core_boost_inpro T E re al ip)). unfold alg_core_boost_inpro.
    apply ck_bind; [cct|]. intros n. apply ck_bind; [cct|]. intros _. apply ck_bind.
    { unfold kernel_core_boost. apply ck_bind; [cct|]. intros _. apply ck_bind; [cct|].
      intros m. apply ck_bind; [apply (ck_cbloop TS E _ _ _ SO cc_pr)|]. intros x. cct. }
    intros [rs|]; [|cct]. apply ck_bind; [cct|]. intros _. apply ck_bind.
    - unfold inprocess. apply ck_bind; [cct|]. intros o. apply ck_bind; [cct|]. intros _. apply ck_bind; [cct|]. intros _.
      apply ck_bind; [cct|]. intros c. apply ck_bind; [cct|]. intros c'. apply ck_bind; [cct|]. intros vm.
      destruct (ip_collect T re rs c' (vm_next vm)) as [[[cnf nx] objs] kept].
      apply ck_bind; [cct|]. intros _. apply ck_bind; [cct|]. intros _. apply ck_bind; [cct|]. intros _.
      apply ck_bind; [cct|]. intros _. apply ck_bind; [cct|]. intros _. apply ck_bind; [cct|]. intros v.
      apply ck_bind; [cct|]. intros v'. apply ck_bind; [cct|]. intros _. apply ck_bind; [cct|]. intros _. apply cc_build.
    - intros es. unfold ip_store. cct.
  Qed.
End Calm.

Section Top.
  Context {I : enc_impl} {SP : enc_spec I} {T : tot_impl I} (TS : tot_spec SP T).
  Notation db := (ti_db T).
  Notation st := (st I).
  Variable E : environ.
  Hypothesis HO : oracle_ok E.
  Hypothesis HN : core_nodup E.
  Variable re : db -> db.
  Hypothesis HR : reset_enc_ok TS re.
  Hypothesis HK : reset_keeps TS re.
  Variable ip : inprocessor.
  Hypothesis HG : gentle ip.
  Variables (i : inst) (o : kopts) (al : alg) (s : st).
  Hypothesis HI : inst_ok i.
  Hypothesis HD : lits_distinct i.
  Hypothesis Hcnf : o_store_cnf o = true.
  Hypothesis Hnew : alg_new al i o = Some s.
  Hypothesis Hsofts : all_softs T E re s.
  Notation me := (vm_max_enc (in_vm i)).
  Notation F := (Feas i).

  Lemma hand_base obs (p : prob I) cls cls' n ds : Hand TS F me cls n ds ->
    sim obs (build_objs 0 (in_objs i)) -> p_objs p = obs ->
    p_vm p = mkVm n (vm_max_orig (in_vm i)) me -> p_cls p = cls' ->
    incl cls cls' -> (forall m, sat m cls -> sat m cls') -> incl (cls_vars cls') (cls_vars cls) ->
    (forall ob v, In ob obs -> In v (lits_vars (map fst (obj_iter ob))) -> v <= me) ->
    (forall a b, agree (fun v => v <= me) a b -> F a -> F b) ->
    vm_max_orig (in_vm i) <= me ->
    Base TS F p ds.
  Proof.
    intros [h1 h2 h3 h4 h5 h6 h7 h8 h9] Hs Ho Hv Hc Hi Hsat Hvars Hov Hag Hmo.
    assert (Hl : forall v, low p v <-> v <= me) by (intros v; unfold low; rewrite Hv; cbn; tauto).
    constructor; rewrite ?Hv, ?Hc; cbn [vm_max_orig vm_max_enc vm_next].
    - exact Hmo.
    - exact h1.
    - intros v H. apply h2. now apply Hvars.
    - intros d v Hd Ha. destruct (h4 d v Hd Ha). rewrite Hl. lia.
    - intros d v Hd Hf. destruct (h5 d v Hd Hf) as (A1 & A2 & A3 & A4). rewrite Hl. repeat split; auto; lia.
    - exact h6.
    - intros d c Hd Hin. apply Hi. eapply h7; eauto.
    - rewrite Ho. intros ob v Hob Hin. apply Hl. eauto.
    - intros a b Hab. apply Hag. intros v H. apply Hab. now apply Hl.
    - intros m Hm. apply h8. intros c Hin. apply Hm. now apply Hi.
    - intros a Ha. destruct (h9 a Ha) as (m & M1 & M2 & M3). exists m. split; [|split; [now apply Hsat|exact M3]].
      intros v H. apply M1. now apply Hl.
  Qed.

  Definition XI (x : exit) (_ : st) : Prop := xok E (iter_bound i) x \/ deadok i o.
  Theorem inpro_ok : wp (alg_core_boost_inpro T E re al ip)
    (fun r s' => if r then boosted (SP := SP) i o s s' else forall a, ~ F a) XI s.
  Proof.
    destruct (new_ready SP i o HI al s Hnew) as [Hrd Hn0].
    assert (GX : forall x (s' : st), good_exit x -> XI x s') by (intros x s' H; left; now left).
    unfold alg_core_boost_inpro. apply wp_bind, wp_gets. rewrite Hn0. apply wp_bind, wp_ret.
    apply wp_bind. eapply wp_mono; [apply wp_eq, (kernel_ok TS E HO HN i o HI (obj_distinct i HD) (iter_bound i) (two_le_bound i) s Hrd
      (mkCb false false))| |].
    2:{ intros x s' [[H _]|H]; [now left|now right]. }
    intros [rs|] s1 [HC Hrun]; [|apply wp_ret; apply HC]. destruct HC as [HC Hlen].
    apply wp_bind, wp_check_termination; [apply HC| |auto].
    intros s2 Hq2 HL2. pose proof (cb_quiet _ _ _ _ _ _ Hq2 HL2 HC) as HC2.
    assert (Hc2 : s_cnf s2 = Some (in_cls i)).
    { rewrite (fr_cnf _ _ (cb_fr _ _ _ _ _ HC2)), (rd_cnf _ _ _ Hrd), Hcnf. reflexivity. }
    assert (Hlo : length (p_objs (s_prob s2)) = length rs).
    { rewrite Hlen. apply sim_length. apply HC2. }
    assert (Hf2 : Forall2 (fun ob x => fok TS F me ob (fst x) (snd x) /\ refs_out TS (fst x) (snd x)) (p_objs (s_prob s2)) rs).
    { apply forall2_of_nth; [exact Hlo|]. intros k ob [rf d] Ho Hr.
      destruct (cb_fin _ _ _ _ _ HC2 k rf d Hr) as (ob' & G1 & G2 & _). assert (ob' = ob) by congruence. subst.
      split; [exact G2|]. exact (cb_out _ _ _ _ _ HC2 k rf d Hr). }
    pose proof (collect_slots TS F me re HR HK rs (p_objs (s_prob s2)) [] (in_cls i) _ Hf2 (cb_hand TS re HR i HI s rs s2 HC2)) as G.
    specialize (Hsofts). unfold all_softs, handed in Hsofts. rewrite Hrun in Hsofts.
    assert (Hc1 : s_cnf s1 = Some (in_cls i)) by (rewrite <- (fr_cnf _ _ (qt_fr _ _ Hq2)); exact Hc2).
    rewrite Hc1, <- (qt_prob _ _ Hq2) in Hsofts.
    apply wp_bind. unfold inprocess. apply wp_bind, wp_gets.
    rewrite (fr_opts _ _ (cb_fr _ _ _ _ _ HC2)), (sa_opts _ _ _ _ (rd_start _ _ _ Hrd)), Hcnf.
    apply wp_bind, wp_ret. apply wp_bind, wp_modify. apply wp_bind, wp_gets. cbn [s_cnf set_ora set_prob].
    rewrite Hc2. apply wp_bind. eapply wp_unwrap; [reflexivity|]. apply wp_bind, wp_gets. cbn [s_prob set_ora set_prob set_cls p_vm].
    destruct (ip_collect T re rs (in_cls i) (vm_next (p_vm (s_prob s2)))) as [[[cls nx] os] kept].
    destruct G as (G1 & G2 & G3 & G4 & G5). cbn [app] in G1.
    specialize (Hsofts _ _ _ eq_refl).
    destruct (HG cls os) as (P1 & P2 & P3 & P4).
    apply wp_bind, wp_modify. set (s3 := set_prob _ _).
    assert (Hf3 : fr s2 s3) by (subst s3; now constructor).
    assert (Hp3 : s_prob s3 = set_vm (mkVm nx (vm_max_orig (p_vm (s_prob s2))) (vm_max_enc (p_vm (s_prob s2)))) (set_cls [] (s_prob s2))) by reflexivity.
    assert (HL3 : lims_ok s3) by exact HL2.
    apply wp_bind, wp_log_start; [exact HL3| |auto]. intros s4 Hq4 HL4.
    apply wp_bind, wp_log_end; [exact HL4| |auto]. intros s5 Hq5 HL5.
    apply wp_bind, wp_emit; [|intros; apply GX; exact Logic.I]. intros s6 Hq6 HL6.
    assert (HL6' : lims_ok s6) by (unfold lims_ok; rewrite HL6; exact HL5).
    apply wp_bind, wp_check_termination; [exact HL6'| |auto]. intros s7 Hq7 HL7.
    assert (Hq37 : quiet s3 s7).
    { eapply quiet_trans; [exact Hq4|]. eapply quiet_trans; [exact Hq5|]. eapply quiet_trans; [exact Hq6|exact Hq7]. }
    apply wp_bind, wp_gets. rewrite (qt_prob _ _ Hq37), Hp3. cbn [set_vm set_cls p_vm].
    apply wp_bind. pose proof (h_me _ _ _ _ _ _ G1) as Hnx. destruct nx as [|nx]; [lia|].
    eapply wp_unwrap; [reflexivity|].
    apply wp_bind. eapply wp_mono; [apply add_clauses_run| |intros ? ? []].
    intros [] s8 (A1 & A2 & A3).
    assert (HL8 : lims_ok s8) by (unfold lims_ok; rewrite A2; exact HL7).
    apply wp_bind, wp_check_termination; [exact HL8| |auto]. intros s9 Hq9 HL9.
    set (out := ip_mp (ip cls os)) in *.
    assert (Hp9 : s_prob s9 = set_cls (rev (mp_cls out)) (set_vm (mkVm (S nx) (vm_max_orig (p_vm (s_prob s2))) (vm_max_enc (p_vm (s_prob s2)))) (s_prob s2))).
    { rewrite (qt_prob _ _ Hq9), A1, (qt_prob _ _ Hq37), Hp3. destruct (s_prob s2). cbn. now rewrite app_nil_r. }
    assert (Hf9 : fr s2 s9).
    { eapply fr_trans; [exact Hf3|]. eapply fr_trans; [apply Hq37|]. eapply fr_trans; [exact A3|apply Hq9]. }
    (* the objectives after MaxPre *)
    assert (Hos : length (mp_objs out) = length kept) by (transitivity (length os); [symmetry; exact (Forall2_len _ _ _ P4)|congruence]).
    assert (Hk : Forall2 (skept TS F me re) (p_objs (s_prob s2)) (combine (mp_objs out) kept)).
    { assert (Hleaf : forall d v, In d (map (ik_db T) kept) -> tb_leafv SP T TS d v -> v <= me) by (apply (h_leaf _ _ _ _ _ _ G1)).
      assert (Hl : length os = length kept) by congruence.
      clear - G5 P4 Hsofts Hleaf Hl. revert Hl G5 Hleaf. generalize (p_objs (s_prob s2)). revert kept.
      induction P4 as [|[so z] [so' z'] os os' [Q1 Q2] P4 IH]; intros [|ik kept] obs Hl G5 Hleaf; try discriminate; cbn [combine] in *.
      - inversion G5; subst. constructor.
      - inversion G5 as [|ob ? obs' ? [C1 C2] G5']; subst. inversion Hsofts as [|? ? S1 S2]; subst. cbn [fst snd] in *.
        constructor.
        + destruct (C2 S1) as (_ & rf & d & xs & D1 & D2 & D3). split; [cbn; congruence|]. cbn [fst snd]. split.
          { intros ->. apply S1. now apply Permutation_sym, Permutation_nil in Q1. }
          split; [intros v; apply Hleaf; now left|]. rewrite D2 in Q1. destruct (soft_perm _ _ Q1) as (ys & Y1 & Y2).
          exists rf, d, ys. split; [exact D1|]. split; [exact Y1|]. eapply slots_perm; eauto.
        + apply IH; [exact S2|cbn in Hl; lia|exact G5'|]. intros d v Hd. apply Hleaf. now right. }
    assert (Hnc : forall k ob, nth_error (p_objs (s_prob s2)) k = Some ob -> obj_is_constant ob = false).
    { intros k ob Hob. assert (Hkl : k < length (combine os kept)).
      { rewrite <- (Forall2_len _ _ _ G5). apply nth_error_Some. congruence. }
      destruct (nth_error (combine os kept) k) as [[so ik]|] eqn:ek; [|apply nth_error_None in ek; lia].
      pose proof (Forall2_nth _ _ _ _ _ _ G5 Hob ek) as [_ C2]. cbn [fst snd] in C2. apply C2.
      apply nth_error_In, in_combine_l in ek. rewrite Forall_forall in Hsofts. now apply Hsofts. }
    eapply wp_mono; [apply (build_ok TS E F me re (mp_objs out) kept (p_objs (s_prob s2)) 0 s9 Hk Hos HL9)| |auto].
    intros es s10 (Hq10 & HL10 & Hes).
    assert (Hle : length es = length (p_objs (s_prob s2))).
    { rewrite <- (Forall2_len _ _ _ Hes), combine_length. rewrite Hlo, G3. lia. }
    assert (Hp10 := Hp9). rewrite <- (qt_prob _ _ Hq10) in Hp10.
    (* the final state *)
    assert (FIN : forall s', lims_ok s' -> fr s10 s' -> s_prob s' = set_encs es (s_prob s10) -> boosted (SP := SP) i o s s').
    { intros s' HL' Hf' Hp'. rewrite Hp10 in Hp'.
      set (p9 := set_cls (rev (mp_cls out)) (set_vm (mkVm (S nx) (vm_max_orig (p_vm (s_prob s2))) (vm_max_enc (p_vm (s_prob s2)))) (s_prob s2))) in *.
      assert (HB : Base TS F p9 (map (ik_db T) kept)).
      { pose proof (side_base _ _ _ _ (cb_side _ _ _ _ _ HC2)) as HB2.
        eapply (hand_base (p_objs (s_prob s2)) p9 cls (rev (mp_cls out))); try exact G1.
        - apply HC2.
        - reflexivity.
        - unfold p9. cbn [set_cls set_vm p_vm]. now rewrite (cb_me _ _ _ _ _ HC2), (cb_mo _ _ _ _ _ HC2).
        - reflexivity.
        - intros c Hc. apply in_rev. rewrite rev_involutive. now apply P1.
        - intros m Hm c Hc. apply in_rev in Hc. now apply (P2 m Hm).
        - intros v Hv. apply P3. unfold cls_vars in *. rewrite in_flat_map in *. destruct Hv as (c & V1 & V2).
          exists c. split; [now apply in_rev|exact V2].
        - intros ob v Hob Hv. pose proof (bs_objs _ _ _ _ HB2 ob v Hob Hv) as G. unfold low in G.
          rewrite (cb_me _ _ _ _ _ HC2) in G. exact G.
        - intros a b Hab. apply (bs_Fcl _ _ _ _ HB2). intros v Hv. apply Hab. unfold low in Hv.
          rewrite (cb_me _ _ _ _ _ HC2) in Hv. exact Hv.
        - pose proof (bs_orig _ _ _ _ HB2) as G. rewrite (cb_me _ _ _ _ _ HC2), (cb_mo _ _ _ _ _ HC2) in G. exact G. }
      assert (Hent : forall k e ob, nth_error es k = Some e -> nth_error (p_objs (s_prob s2)) k = Some ob ->
        exists d, nth_error (map (ik_db T) kept) k = Some d /\ entry TS F me ob d e (obj_lb ob)).
      { intros k e ob He Ho. assert (Hkl : k < length kept).
        { rewrite G3, <- Hlo. apply nth_error_Some. congruence. }
        destruct (nth_error kept k) as [ik|] eqn:ek; [|apply nth_error_None in ek; lia].
        exists (ik_db T ik). split; [now apply map_nth_error|].
        assert (Hc : nth_error (combine (p_objs (s_prob s2)) kept) k = Some (ob, ik)).
        { clear - Ho ek. revert Ho ek. generalize (p_objs (s_prob s2)). intros obs. revert kept k.
          induction obs as [|x obs IH]; intros [|y kept] [|k] Ho ek; try discriminate; cbn in *; [congruence|eauto]. }
        pose proof (Forall2_nth _ _ _ _ _ _ Hes Hc He) as G. unfold encfor in G. cbn [fst snd] in G.
        unfold entry. rewrite (Hnc k ob Ho).
        assert (Hr : exists rf d, nth_error rs k = Some (rf, d)).
        { destruct (nth_error rs k) as [[rf d]|] eqn:er; [eauto|]. apply nth_error_None in er. lia. }
        destruct Hr as (rf & d & Hr). destruct (cb_fin _ _ _ _ _ HC2 k rf d Hr) as (ob' & O1 & _ & O3).
        assert (ob' = ob) by congruence. subst ob'.
        assert (ik_off T ik = rf_offset rf).
        { apply (map_nth_error (ik_off T)) in ek. rewrite G4 in ek.
          rewrite (map_nth_error (fun x : reform * db => rf_offset (fst x)) _ _ Hr) in ek. cbn [fst] in ek. congruence. }
        rewrite O3, <- H. exact G. }
      assert (Hle' : forall k ob a, nth_error (p_objs (s_prob s2)) k = Some ob -> F a -> obj_lb ob <= icost ob a).
      { intros k ob a Ho Ha.
        destruct (nth_error rs k) as [[rf d]|] eqn:er.
        2:{ apply nth_error_None in er. assert (k < length (p_objs (s_prob s2))) by (apply nth_error_Some; congruence). lia. }
        destruct (cb_fin _ _ _ _ _ HC2 k rf d er) as (ob' & O1 & O2 & O3). assert (ob' = ob) by congruence. subst ob'.
        rewrite O3. eapply finok_le; eauto. }
      assert (Hfr : fr s s').
      { eapply fr_trans; [apply HC2|]. eapply fr_trans; [exact Hf9|]. eapply fr_trans; [apply Hq10|exact Hf']. }
      destruct Hrd as [[a1 a2 a3 a4 a5 a6 a7] r2 r3 r4 r5].
      constructor.
      - constructor.
        + constructor; rewrite ?Hp'; cbn [set_encs p_objs p_vm].
          * eapply base_inv; [exact HB|exact Hle|].
            intros k e ob He Ho. destruct (Hent k e ob He Ho) as (d & H1 & H2). exists d, (obj_lb ob). split; [exact H1|]. split.
            -- unfold p9. cbn [set_cls set_vm p_vm vm_max_enc]. rewrite (cb_me _ _ _ _ _ HC2). exact H2.
            -- intros a Ha. eapply Hle'; eauto.
          * rewrite (fr_nobjs _ _ Hfr), a2, (sim_length _ _ a3). unfold p9. cbn [set_cls set_vm p_objs].
            rewrite (sim_length _ _ (cb_objs _ _ _ _ _ HC2)). reflexivity.
          * apply HC2.
          * unfold p9. cbn [set_cls set_vm p_vm vm_max_orig]. apply HC2.
          * rewrite (fr_opts _ _ Hfr). exact a5.
          * rewrite (fr_front _ _ Hfr). exact a6.
          * rewrite (fr_fence _ _ Hfr). exact a7.
        + exact HL'.
        + rewrite Hp'. unfold p9. cbn [set_encs set_cls set_vm p_vm vm_max_enc]. apply HC2.
        + rewrite Hp'. unfold p9. cbn [set_encs set_cls set_vm p_objs p_encs]. intros k ob Ho Hc. rewrite (Hnc k ob Ho) in Hc. discriminate.
        + rewrite (fr_cnf _ _ Hfr). exact r5.
      - apply Hfr.
      - rewrite Hp'. unfold p9. cbn [set_encs set_cls set_vm p_objs p_encs]. intros k ob e Ho He.
        destruct (Hent k e ob He Ho) as (d & _ & G).
        split; [eapply entry_cap; eauto|]. split; [eapply entry_off; eauto|]. intros Hc a Ha. eapply entry_const; eauto.
      - rewrite Hp'. exact Hle'.
      - rewrite Hp'. unfold p9. cbn [set_encs set_cls set_vm p_objs]. intros k ob Ho Hc.
        destruct (nth_error rs k) as [[rf d]|] eqn:er.
        2:{ apply nth_error_None in er. assert (k < length (p_objs (s_prob s2))) by (apply nth_error_Some; congruence). lia. }
        destruct (cb_fin _ _ _ _ _ HC2 k rf d er) as (ob' & O1 & O2 & O3). assert (ob' = ob) by congruence. subst ob'.
        rewrite O3. unfold finok in O2. rewrite Hc in O2. apply (fi_opt _ _ _ _ _ _ O2). }
    (* storing the encodings *)
    assert (Hst : wp (ip_store al es) (fun _ s' => lims_ok s' /\ fr s10 s' /\ s_prob s' = set_encs es (s_prob s10)) XI s10).
    { assert (Hm : wp (modify (fun s => set_prob (set_encs es (s_prob s)) s))
        (fun _ s' => lims_ok s' /\ fr s10 s' /\ s_prob s' = set_encs es (s_prob s10)) XI s10).
      { apply wp_modify. split; [exact HL10|]. split; [now constructor|reflexivity]. }
      destruct al; cbn [ip_store]; try exact Hm.
      assert (H2 : length es = 2).
      { rewrite Hle, (sim_length _ _ (cb_objs _ _ _ _ _ HC2)). clear - Hnew. cbn in Hnew. unfold bi_new in Hnew.
        destruct (kernel_new _ _ _ _) as [s'|] eqn:ek; [|discriminate]. destruct (_ =? _) eqn:e2; [|discriminate].
        apply Nat.eqb_eq in e2. unfold kernel_new in ek. destruct (vm_max_var (in_vm i)); [|discriminate].
        destruct (init_encs _ _ _) as [es0 nx0]. injection ek as <-. exact e2. }
      destruct es as [|e0 [|e1 [|]]]; try discriminate. exact Hm. }
    apply wp_bind. eapply wp_mono; [exact Hst| |auto]. intros [] s11 (HL11 & Hf11 & Hp11).
    apply wp_bind, wp_check_termination; [exact HL11| |auto]. intros s12 Hq12 HL12. apply wp_ret.
    apply FIN; [exact HL12| |].
    - eapply fr_trans; [exact Hf11|apply Hq12].
    - rewrite (qt_prob _ _ Hq12). exact Hp11.
  Qed.

  Lemma inpro_finishes : calm E -> iter_bound i < ev_fuel E -> ~ deadok i o ->
    exists b s1, alg_core_boost_inpro T E re al ip s = (Done b, s1).
  Proof.
    intros HC Hf Hd. pose proof (wp_run _ _ _ _ inpro_ok) as G.
    assert (Hl : s_lims s = lims_none).
    { clear - Hnew. assert (Hk : exists s', kernel_new (in_cls i) (build_objs 0 (in_objs i)) (in_vm i) o = Some s' /\ s' = s).
      { destruct al; cbn in Hnew; eauto. unfold bi_new in Hnew. destruct (kernel_new _ _ _ _) as [s'|]; [|discriminate].
        destruct (_ =? _); [|discriminate]. exists s'. split; congruence. }
      destruct Hk as (s' & Hk & ->). unfold kernel_new in Hk. destruct (vm_max_var (in_vm i)); [|discriminate].
      destruct (init_encs _ _ _) as [es nx]. now injection Hk as <-. }
    pose proof (wp_run _ _ _ _ (calm_inpro TS E HC re al ip s Hl)) as C. destruct (alg_core_boost_inpro T E re al ip s) as [[b|x] s1]; [eauto|]. exfalso.
    destruct G as [G|G]; [|exact (Hd G)]. unfold calmX in C. destruct G as [G|[-> G]]; [|lia].
    destruct x as [t|[]| |]; cbn in *; tauto.
  Qed.
End Top.
