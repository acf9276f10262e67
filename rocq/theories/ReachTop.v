(** * Linear search, P-minimal cut and fence on reachable states *)
From Coq Require Import List Bool Arith Lia ZArith.
From Verif Require Import Base BaseLemmas Spec MTypes MKernel MPMinimal MLowerBounding MBiOptSat
  EncSpec Wp Sem Kern Yield PMin PMinTop LBTop Linsu BiTop Init ApiSpec Ext Blk Struct Book Api ApiThm ApiTop.
Import ListNotations.

(** Assignments of the instance's variables still allowed by the clauses in the oracle *)
Definition allowed {I} (s : st I) (a : asg) : Prop :=
  exists m, sat m (p_cls (s_prob s)) /\ forall v, v <= vm_max_enc (p_vm (s_prob s)) -> m v = a v.

Section Reach.
  Context {I : enc_impl} (SP : enc_spec I).
  Notation st := (st I).
  Variables (i : inst) (o : kopts).
  Hypothesis HI : inst_ok i.
  Hypothesis Hn : o_enum o = NoEnum.

  Lemma inv_allowed F A S (s : st) a : Inv SP F (s_prob s) A S -> (A a <-> allowed s a).
  Proof.
    intros H. split.
    - intros Ha. destruct (inv_comp _ _ _ _ _ H a Ha) as (m & H1 & H2 & _). exists m. split; [exact H2|].
      intros v Hv. symmetry. now apply H1.
    - intros (m & H1 & H2). eapply (inv_Acl _ _ _ _ _ H); [|apply (inv_sound _ _ _ _ _ H), H1].
      intros v Hv. apply H2, Hv.
  Qed.

  (** What histories guarantee, for all three algorithms *)
  Record reach (s0 s : st) (A : asg -> Prop) : Prop := mkReach {
    rc_fresh : fresh_st SP (in_cls i) (build_objs 0 (in_objs i)) (in_vm i) o s0;
    rc_n : n_objs (s_stats s) = length (in_objs i);
    rc_ext : ext SP (s_prob s0) (s_prob s);
    rc_inv : Inv SP (Feas i) (s_prob s) A (fun _ => True) }.

  Lemma reach_history al (s0 : st) h : alg_new al i o = Some s0 -> run_ok h ->
    exists A, reach s0 (run al h s0) A /\
      (al = ALowerBounding -> s_fence (run al h s0) = [] \/ FI SP (s_fence (run al h s0)) (s_prob (run al h s0))).
  Proof.
    intros Hnew Hok. pose proof (enum_none i o Hn) as HE. pose proof (new_start SP i o HI al s0 Hnew) as H0.
    pose proof (new_fresh SP i o HI al s0 Hnew) as HF.
    assert (Hlen : n_objs (s_stats s0) = length (in_objs i)).
    { rewrite (fs_stats _ _ _ _ _ _ HF). cbn. apply build_length. }
    assert (Dec : al = ABiOptSat \/ al <> ABiOptSat) by (destruct al; (now left) || (right; discriminate)).
    destruct Dec as [-> | Hal].
    - destruct (GB_run SP i o HI s0 h H0 (new_bi SP i o HI _ s0 Hnew eq_refl) Hn s0 Hok (GB_start SP i o s0 H0))
        as [G1 G2 G3 _ (L & D & _ & _ & G5)].
      eexists. split; [|discriminate]. constructor; [exact HF|congruence|exact G3|exact G5].
    - destruct (run_noenum SP i o HI HE s0 H0 al h Hn Hal [] s0 Hok) as (L & G).
      { eapply G_weak. apply (G_start SP i o s0 H0 al). }
      destruct (g_ex _ _ _ _ _ _ _ _ G) as (D & G5 & _).
      eexists. split; [|apply G]. constructor; [exact HF| | |exact G5].
      + rewrite (g_nobjs _ _ _ _ _ _ _ _ G). exact Hlen.
      + apply G.
  Qed.

  Section At.
    Variables (s0 s : st) (A : asg -> Prop) (l : limits).
    Hypothesis HR : reach s0 s A.
    Hypothesis Hl : lims_pos l.
    Let s1 := set_lims l s.

    Lemma reach_objs : p_objs (s_prob s) = build_objs 0 (in_objs i).
    Proof. rewrite (ext_objs _ _ _ (rc_ext _ _ _ HR)). apply (fs_objs _ _ _ _ _ _ (rc_fresh _ _ _ HR)). Qed.
    Lemma reach_K : K SP (Feas i) A (fun _ => True) s1.
    Proof.
      constructor; [exact Hl| |apply HR]. cbn. rewrite (rc_n _ _ _ HR), reach_objs. symmetry. apply build_length.
    Qed.

    (** *** Linear search *)
    Lemma reach_linsu E idx r base lb ub : oracle_ok E -> nth_error (in_objs i) idx = Some r ->
      (forall v, In v (lits_vars base) -> v <= vm_max_enc (in_vm i)) ->
      (forall a, allowed s a -> lits_true a base -> lb <= icost (obj_new (fst r) (snd r) idx) a) ->
      match ub with
      | None => True
      | Some (c, sol) => exists a, allowed s a /\ lits_true a base /\ icost (obj_new (fst r) (snd r) idx) a = c /\
          match sol with None => True | Some x => exists v, vm_max_enc (in_vm i) <= v /\ x = sol_of a v end
      end ->
      match linsu E idx base ub (Some lb) s1 with
      | (Done None, s') => (forall a, allowed s a -> ~ lits_true a base) /\ forall a, allowed s' a <-> allowed s a
      | (Done (Some (c, sol)), s') =>
          (exists a, allowed s a /\ lits_true a base /\ extends a sol /\ icost (obj_new (fst r) (snd r) idx) a = c) /\
          (forall a, allowed s a -> lits_true a base -> c <= icost (obj_new (fst r) (snd r) idx) a) /\
          forall a, allowed s' a <-> allowed s a
      | (Exit x, s') => xok E (wtotal (obj_iter (obj_new (fst r) (snd r) idx))) x
      end.
    Proof.
      intros HO Hr Hb Hlb Hub. set (ob := obj_new (fst r) (snd r) idx) in *.
      assert (Ho : nth_error (p_objs (s_prob s1)) idx = Some ob).
      { change (s_prob s1) with (s_prob s). rewrite reach_objs, build_nth, Hr. reflexivity. }
      assert (Hme : vm_max_enc (p_vm (s_prob s)) = vm_max_enc (in_vm i)).
      { rewrite (ext_enc _ _ _ (rc_ext _ _ _ HR)). apply (fs_me _ _ _ _ _ _ (rc_fresh _ _ _ HR)). }
      assert (Ha : forall a, A a <-> allowed s a) by (intros a; apply (inv_allowed _ _ _ _ _ (rc_inv _ _ _ HR))).
      assert (Hsel : sel SP (s_prob s1) A (fun m => lits_true m base) base).
      { split; [auto|]. split; [auto|]. intros a b Hab Ht x Hx.
        rewrite <- (Ht x Hx). unfold lit_true. rewrite (Hab (lvar x)); [reflexivity|].
        unfold low. cbn. rewrite Hme. apply Hb. now apply in_map. }
      assert (Hlbok : lbok (I := I) (Feas i) idx ob lb s1).
      { eapply (lbok_ext SP (Feas i) idx ob lb s0 s1); [exact (rc_ext _ _ _ HR)|].
        intros e He. split.
        - rewrite (fs_offs _ _ _ _ _ _ (rc_fresh _ _ _ HR) e); [lia|]. eapply nth_error_In; eauto.
        - intros Hc a _. assert (G : icost ob a = 0); [|lia].
          refine (fs_const _ _ _ _ _ _ (rc_fresh _ _ _ HR) idx e ob He _ Hc a). now rewrite build_nth, Hr. }
      assert (HB : forall a, icost ob a <= wtotal (obj_iter ob)) by (intros a; apply wsum_le_total).
      assert (Hmin : forall a, A a -> lits_true a base -> lb <= icost ob a).
      { intros a H1. apply Hlb, Ha, H1. }
      assert (Hub' : match ub with Some x => isub (wtotal (obj_iter ob)) A (fun m => lits_true m base) ob s1 x | None => True end).
      { destruct ub as [[c sol]|]; [|exact Logic.I]. destruct Hub as (a & U1 & U2 & U3 & U4). unfold isub. cbn [fst snd].
        destruct sol as [x|].
        - destruct U4 as (v & V1 & V2). exists a. split; [|split; [now apply Ha|split; assumption]].
          exists v. split; [|exact V2]. change (s_prob s1) with (s_prob s). now rewrite Hme.
        - split; [rewrite <- U3; apply HB|]. exists a. split; [now apply Ha|]. split; [exact U2|]. now rewrite U3. }
      pose proof (wp_run _ _ _ _ (linsu_ok SP E HO (Feas i) (wtotal (obj_iter ob)) A (fun m => lits_true m base) idx lb ob base s1
        reach_K Ho Hsel Hlbok Hmin HB ub Hub')) as G.
      destruct (linsu E idx base ub (Some lb) s1) as [[[[c sol]|]|x] s'].
      - destruct G as (G1 & G2 & (m & M1 & M2 & M3 & M4) & G4). split; [|split].
        + exists m. split; [now apply Ha|]. split; [exact M3|]. split; [|exact M4].
          destruct M1 as (v & V1 & ->). apply extends_sol_of, agree_refl.
        + intros a H1 H2. apply G4; [now apply Ha|exact H2].
        + intros a. rewrite <- Ha. symmetry. apply (inv_allowed _ _ _ _ _ (k_inv _ _ _ _ _ G2)).
      - destruct G as (G1 & G2 & G3). split.
        + intros a H1 H2. exact (G3 a (proj2 (Ha a) H1) H2).
        + intros a. rewrite <- Ha. symmetry. apply (inv_allowed _ _ _ _ _ (k_inv _ _ _ _ _ G2)).
      - apply G.
    Qed.

    (** *** The P-minimal cut *)
    Lemma reach_cut a0 : allowed s a0 ->
      exists s', (bind (dominated_block_clause (ic (build_objs 0 (in_objs i)) a0)) (fun cl => add_clause cl)) s1 = (Done tt, s') /\
        forall a, allowed s' a <-> allowed s a /\ ~ weakly_dominates (costs (in_objs i) a0) (costs (in_objs i) a).
    Proof.
      intros H0. assert (Ha : forall a, A a <-> allowed s a) by (intros a; apply (inv_allowed _ _ _ _ _ (rc_inv _ _ _ HR))).
      pose (Q := fun (_ : unit) (s' : st) => forall a, allowed s' a <-> allowed s a /\ ~ weakly_dominates (costs (in_objs i) a0) (costs (in_objs i) a)).
      assert (W : wp (bind (dominated_block_clause (ic (build_objs 0 (in_objs i)) a0)) (fun cl => add_clause cl)) Q (fun _ _ => False) s1).
      { apply wp_bind. eapply (wp_dominated_block_clause SP (Feas i) A (fun _ => True) a0).
        - exact reach_K.
        - now apply Ha.
        - change (s_prob s1) with (s_prob s). now rewrite reach_objs.
        - intros cl s2 Hk _ K2 Hv Hs. change (s_prob s1) with (s_prob s) in *. rewrite reach_objs in *.
          pose (A' := fun a => A a /\ ndom (build_objs 0 (in_objs i)) (ic (build_objs 0 (in_objs i)) a0) a).
          assert (Hos : p_objs (s_prob s2) = build_objs 0 (in_objs i)).
          { rewrite (ext_objs _ _ _ (ad_ext _ _ _ (kp_adv _ _ _ Hk))). exact reach_objs. }
          eapply (wp_add_clause SP (Feas i) A _ A' cl).
          + exact K2.
          + exact Hv.
          + intros a [H _]. exact H.
          + intros a b Hab [H1 H2]. split.
            * eapply (inv_Acl _ _ _ _ _ (k_inv _ _ _ _ _ K2)); eauto.
            * unfold ndom in *. rewrite <- Hos in *.
              rewrite <- (ic_agree SP (Feas i) (s_prob s2) a b (inv_wf _ _ _ _ _ (k_inv _ _ _ _ _ K2)) Hab). exact H2.
          + intros m Hm Hc. split; [exact (inv_sound _ _ _ _ _ (k_inv _ _ _ _ _ K2) m Hm)|]. now apply Hs.
          + intros m [_ Hd] _ _ [_ Hc]. now apply Hc.
          + intros s3 K3 _ _ _ _ a. rewrite <- (inv_allowed _ _ _ _ a (k_inv _ _ _ _ _ K3)). unfold A', ndom.
            rewrite Ha. rewrite (ic_le _ (io_ok _ HI)). reflexivity. }
      unfold wp in W. destruct (bind _ _ s1) as [[[]|x] s']; [exists s'; auto|contradiction].
    Qed.
  End At.

  (** *** The fence *)
  Lemma reach_fence (s0 : st) h l E core s2 : alg_new ALowerBounding i o = Some s0 -> run_ok h -> lims_pos l ->
    let s := run ALowerBounding h s0 in
    fence_init (set_lims l s) = (Done tt, s2) ->
    core <> [] -> (forall x, In x core -> In (lnot x) (fence_assumps (s_fence s2))) ->
    match update_fence E core s2 with
    | (Done _, s3) => let f := fence_bounds (s_fence s2) in let f' := fence_bounds (s_fence s3) in
        length f = length (in_objs i) /\ length f' = length (in_objs i) /\
        (forall j b b', nth_error f j = Some b -> nth_error f' j = Some b' -> b <= b') /\
        (exists j b b', nth_error f j = Some b /\ nth_error f' j = Some b' /\ b < b') /\
        (forall j b b' r a, nth_error f j = Some b -> nth_error f' j = Some b' ->
           nth_error (in_objs i) j = Some r -> allowed s a ->
           icost (obj_new (fst r) (snd r) j) a <= b \/ b' <= icost (obj_new (fst r) (snd r) j) a)
    | (Exit x, _) => good_exit x
    end.
  Proof.
    intros Hnew Hok Hl s Hin Hne Hcore.
    destruct (reach_history ALowerBounding s0 h Hnew Hok) as (A & HR & HF). fold s in HR, HF. specialize (HF eq_refl).
    pose proof (reach_K s0 s A l HR Hl) as HK.
    assert (Ha : forall a, A a <-> allowed s a) by (intros a; apply (inv_allowed _ _ _ _ _ (rc_inv _ _ _ HR))).
    assert (W : wp fence_init (fun _ s2 => K SP (Feas i) A (fun _ => True) s2 /\ FI SP (s_fence s2) (s_prob s2) /\
        ext SP (s_prob s) (s_prob s2)) (fun _ _ => False) (set_lims l s)).
    { eapply (wp_fence_init SP (Feas i) A); [exact HK|exact HF|]. intros s' K' F' _ R'.
      split; [exact K'|]. split; [exact F'|apply (rr_ext _ _ _ R')]. }
    unfold wp in W. rewrite Hin in W. destruct W as (K2 & F2 & E2).
    assert (Hos : p_objs (s_prob s2) = build_objs 0 (in_objs i)).
    { rewrite (ext_objs _ _ _ E2). apply (reach_objs s0 s A HR). }
    assert (Hlen : length (s_fence s2) = length (in_objs i)).
    { rewrite (fi_len _ _ _ F2), (wf_len _ _ _ (inv_wf _ _ _ _ _ (k_inv _ _ _ _ _ K2))), Hos. apply build_length. }
    assert (W : wp (update_fence E core) (fun _ s3 => exists found, raised A (s_prob s3) (s_fence s2) found (s_fence s3) /\
        (exists j, nth_error found j = Some true) /\ p_objs (s_prob s3) = p_objs (s_prob s2)) (fun x _ => good_exit x) s2).
    { eapply (wp_update_fence SP E (Feas i) A core); auto.
      intros s3 found K3 F3 R3 J3 _ RR _. exists found. split; [exact R3|]. split; [exact J3|].
      apply (ext_objs _ _ _ (rr_ext _ _ _ RR)). }
    apply wp_run in W. destruct (update_fence E core s2) as [[[]|x] s3]; [|exact W].
    destruct W as (found & [R1 R2 R3 R4] & (j & Hj) & Ho3). cbv zeta. unfold fence_bounds.
    rewrite !map_length, R1, Hlen. split; [reflexivity|]. split; [reflexivity|].
    assert (P : forall j b b', nth_error (map fst (s_fence s2)) j = Some b -> nth_error (map fst (s_fence s3)) j = Some b' ->
      (nth_error found j = Some false /\ b = b') \/ (nth_error found j = Some true /\ b < b' /\
        forall ob m, nth_error (p_objs (s_prob s3)) j = Some ob -> A m -> icost ob m <= b \/ b' <= icost ob m)).
    { intros k b b' Hb Hb'. rewrite nth_error_map in Hb, Hb'.
      destruct (nth_error (s_fence s2) k) as [[c a]|] eqn:Hk; [|discriminate]. cbn in Hb. injection Hb as ->.
      destruct (nth_error found k) as [[]|] eqn:Hf.
      - right. destruct (R4 k b a Hf Hk) as (c' & a' & H3 & Hlt & Hsk). rewrite H3 in Hb'. cbn in Hb'. injection Hb' as ->.
        auto.
      - left. rewrite (R3 k Hf), Hk in Hb'. cbn in Hb'. injection Hb' as ->. auto.
      - exfalso. apply nth_error_None in Hf. assert (k < length (s_fence s2)) by (apply nth_error_Some; congruence). lia. }
    split; [|split].
    - intros k b b' Hb Hb'. destruct (P k b b' Hb Hb') as [[_ ->]|(_ & Hlt & _)]; lia.
    - assert (Hlt : j < length (s_fence s2)) by (rewrite <- R2; apply nth_error_Some; congruence).
      destruct (nth_error (s_fence s2) j) as [[b a]|] eqn:Hf; [|apply nth_error_None in Hf; lia].
      destruct (R4 j b a Hj Hf) as (b' & a' & H3 & Hbb & _). exists j, b, b'.
      rewrite !nth_error_map, Hf, H3. auto.
    - intros k b b' r a Hb Hb' Hr Hal. destruct (P k b b' Hb Hb') as [[_ ->]|(_ & Hlt & Hsk)]; [lia|].
      apply Hsk; [|now apply Ha]. rewrite Ho3, Hos, build_nth, Hr. reflexivity.
  Qed.
End Reach.

(** ** Statements for Prop files *)
Lemma sol_cost_extends (ls : list (lit * nat)) sol a : extends a sol ->
  (forall v, In v (lits_vars (map fst ls)) -> exists b, nth_error sol v = Some (Some b)) ->
  list_sum (map (fun lw => if is_true (lit_value sol (fst lw)) then snd lw else 0) ls) = wsum a ls.
Proof.
  intros Ha. induction ls as [|[l w] r IH]; intros Hv; [reflexivity|]. cbn [map list_sum fold_right wsum fst snd].
  rewrite <- IH by (intros v Hr; apply Hv; now right).
  destruct (Hv (lvar l)) as (b & Hb); [now left|]. unfold lit_value, var_value. rewrite Hb. unfold lit_true.
  rewrite (Ha _ _ Hb). destruct (xorb (lneg l) b); reflexivity.
Qed.
Lemma reported_costs (r : raw_obj) k (sol : assignment) (a : asg) :
  obj_ok r -> obj_fits r -> extends a sol ->
  (forall v, In v (lits_vars (map fst (fst r))) -> exists b, nth_error sol v = Some (Some b)) ->
  let ob := obj_new (fst r) (snd r) k in
  externalize_one ob (sol_cost ob sol) = Some (snd r + Z.of_nat (wsum a (fst r)))%Z.
Proof.
  intros H1 H2 H3 H4 ob. assert (G : sol_cost ob sol = icost ob a).
  { unfold sol_cost, icost. apply sol_cost_extends; [exact H3|]. intros v Hv. apply H4.
    apply in_map_iff in Hv. destruct Hv as (x & <- & Hx). apply in_map. unfold ob in Hx. now apply obj_new_lits in Hx. }
  rewrite G. now apply externalize_value.
Qed.
Lemma pmcs_clause i (sol : assignment) : exists c,
  block_pareto_mcs (build_objs 0 (in_objs i)) sol = Some c /\
  (forall a, clause_true a c = false <->
     forall x, raw_lit i x -> lit_value sol x = Some true -> lit_true a x = true) /\
  (forall x, ~ (In x c /\ In (lnot x) c)).
Proof.
  destruct (pmcs_block (build_objs 0 (in_objs i)) sol) as (c & Hc & Hin). exists c. split; [exact Hc|]. split.
  - intros a. rewrite (pmcs_block_iff _ _ _ a Hc). split; intros H x Hx; apply H; now apply (obj_lit_raw i x 0).
  - intros x [H1 H2]. apply Hin in H1, H2. destruct H1 as (y & -> & _ & Hy), H2 as (z & Hz & _ & Hz').
    unfold lit_value in *. destruct y as [v b], z as [v' b']. unfold lnot in Hz. cbn in *.
    injection Hz as E1 E2. subst v'. rewrite negb_involutive in E2. subst b.
    destruct (var_value sol v) as [[]|]; destruct b'; cbn in *; congruence.
Qed.
(** A call ended early for a proper reason, or the model's iteration bound was too small *)
Definition proper_end (n : nat) (E : environ) (x : exit) : Prop :=
  match x with
  | ETerm _ | EErr ErrLogger | EErr ErrOracle => True
  | ENoFuel => ev_fuel E <= n
  | _ => False
  end.
Lemma xok_end E n x : xok E n x -> proper_end n E x.
Proof. intros [H|[-> H]]; [destruct x as [|[]| |]; cbn in *; tauto|exact H]. Qed.
Lemma linear_search I (SP : enc_spec I) i o al (s0 : st I) h l E idx r base lb ub :
  inst_ok i -> o_enum o = NoEnum -> alg_new al i o = Some s0 -> run_ok h -> lims_pos l -> oracle_ok E ->
  let s := run al h s0 in
  let cost a := wsum a (obj_iter (obj_new (fst r) (snd r) idx)) in
  nth_error (in_objs i) idx = Some r ->
  (forall v, In v (lits_vars base) -> v <= vm_max_enc (in_vm i)) ->
  (forall a, allowed s a -> lits_true a base -> lb <= cost a) ->
  match ub with
  | None => True
  | Some (c, sol) => exists a, allowed s a /\ lits_true a base /\ cost a = c /\
      match sol with None => True | Some x => exists v, vm_max_enc (in_vm i) <= v /\ x = sol_of a v end
  end ->
  match linsu E idx base ub (Some lb) (set_lims l s) with
  | (Done None, s') => (forall a, allowed s a -> ~ lits_true a base) /\ (forall a, allowed s' a <-> allowed s a)
  | (Done (Some (c, sol)), s') =>
      (exists a, allowed s a /\ lits_true a base /\ extends a sol /\ cost a = c) /\
      (forall a, allowed s a -> lits_true a base -> c <= cost a) /\
      (forall a, allowed s' a <-> allowed s a)
  | (Exit x, s') => proper_end (wtotal (obj_iter (obj_new (fst r) (snd r) idx))) E x
  end.
Proof.
  intros HI Hn Hnew Hok Hl HO s cost Hr Hb Hlb Hub.
  destruct (reach_history SP i o HI Hn al s0 h Hnew Hok) as (A & HR & _). fold s in HR.
  pose proof (reach_linsu SP i o s0 s A l HR Hl E idx r base lb ub HO Hr Hb Hlb Hub) as G.
  destruct (linsu E idx base ub (Some lb) (set_lims l s)) as [[[[c sol]|]|x] s']; [exact G|exact G|].
  now apply xok_end.
Qed.
Lemma cut_exact I (SP : enc_spec I) i o al (s0 : st I) h l a0 :
  inst_ok i -> o_enum o = NoEnum -> alg_new al i o = Some s0 -> run_ok h -> lims_pos l ->
  let s := run al h s0 in
  allowed s a0 ->
  let cs := map (fun ob => wsum a0 (obj_iter ob)) (build_objs 0 (in_objs i)) in
  exists s', bind (dominated_block_clause cs) (fun cl => add_clause cl) (set_lims l s) = (Done tt, s') /\
    forall a, allowed s' a <->
      allowed s a /\ ~ weakly_dominates (costs (in_objs i) a0) (costs (in_objs i) a).
Proof.
  intros HI Hn Hnew Hok Hl s Ha cs. destruct (reach_history SP i o HI Hn al s0 h Hnew Hok) as (A & HR & _). fold s in HR.
  exact (reach_cut SP i o HI s0 s A l HR Hl a0 Ha).
Qed.
Lemma fence_rises I (SP : enc_spec I) i o (s0 : st I) h l E core s2 :
  inst_ok i -> o_enum o = NoEnum -> alg_new ALowerBounding i o = Some s0 -> run_ok h -> lims_pos l ->
  let s := run ALowerBounding h s0 in
  fence_init (set_lims l s) = (Done tt, s2) ->
  core <> [] -> (forall x, In x core -> In (lnot x) (fence_assumps (s_fence s2))) ->
  match update_fence E core s2 with
  | (Done _, s3) => let f := fence_bounds (s_fence s2) in let f' := fence_bounds (s_fence s3) in
      length f = length (in_objs i) /\ length f' = length (in_objs i) /\
      (forall j b b', nth_error f j = Some b -> nth_error f' j = Some b' -> b <= b') /\
      (exists j b b', nth_error f j = Some b /\ nth_error f' j = Some b' /\ b < b') /\
      (forall j b b' r a, nth_error f j = Some b -> nth_error f' j = Some b' ->
         nth_error (in_objs i) j = Some r -> allowed s a ->
         let cost := wsum a (obj_iter (obj_new (fst r) (snd r) j)) in cost <= b \/ b' <= cost)
  | (Exit x, _) => x = EErr ErrLogger \/ x = EErr ErrOracle \/ exists t, x = ETerm t
  end.
Proof.
  intros HI Hn Hnew Hok Hl s Hin Hne Hcore.
  pose proof (reach_fence SP i o HI Hn s0 h l E core s2 Hnew Hok Hl Hin Hne Hcore) as G.
  destruct (update_fence E core s2) as [[u|x] s3]; [exact G|].
  destruct x as [t|[]| |]; cbn in G; try contradiction; eauto.
Qed.
