(** * End to end: from parsed problems to printed fronts *)
From Coq Require Import List Bool Arith Lia ZArith.
From Verif Require Import Base BaseLemmas Spec MTypes MKernel MOll EncSpec TotSpec Wp Sem ApiSpec MPrepro MMain PreSpec
  Kern Ext Blk Api Book ApiThm ApiTop PreproThm ReindexThm CbSpec CbTop CbApi CbHist CbFront.
Import ListNotations.

(** A printed point solves the parsed problem: its costs are optimal, and every way of
    completing one of its solutions is feasible with exactly these costs. *)
Definition p_sol (p : parsed) (c : list Z) (sol : assignment) : Prop :=
  length sol <= vm_next (pa_vm p) /\
  (forall a, extends a sol -> p_feasible p a /\ p_costs p a = c).
Definition p_point (p : parsed) (nd : nd_point assignment) : Prop :=
  p_optimal p (nd_costs nd) /\ nd_sols nd <> [] /\ Forall (p_sol p (nd_costs nd)) (nd_sols nd).
Definition p_front (p : parsed) (f : front assignment) : Prop :=
  NoDup (map nd_costs f) /\ Forall (p_point p) f.
Definition p_exact (p : parsed) (f : front assignment) : Prop :=
  NoDup (map nd_costs f) /\ forall c, In c (map nd_costs f) <-> p_optimal p c.

(** No objective has one common weight other than 1. *)
Definition weights_mixed (p : parsed) : Prop := forall o w, In o (pa_objs p) -> fst o <> [] ->
  (forall cw, In cw (fst o) -> snd cw = w) -> w = 1.

Lemma front_convert_costs {S T} (g : S -> T) (f : front S) :
  map nd_costs (front_convert g f) = map nd_costs f.
Proof. unfold front_convert. rewrite map_map. reflexivity. Qed.

Section Front.
  Variable pe : pb_encoder.
  Variable p : parsed.
  Variable i : inst.
  Hypothesis Hpe : pb_enc_ok pe.
  Hypothesis Hp : parsed_ok p.
  Hypothesis Hi : to_clausal pe p = POk i.

  Lemma clausal_p_front f : sound_front i f -> p_front p f.
  Proof.
    intros [H1 H2]. split; [exact H1|]. rewrite Forall_forall in *. intros nd Hnd.
    destruct (H2 nd Hnd) as (A & B & _ & C). split; [now apply (clausal_front pe p i Hpe Hp Hi)|].
    split; [exact B|]. apply Forall_forall. intros sol Hsol.
    destruct (clausal_solution pe p i Hpe Hp Hi _ _ A (C sol Hsol)) as (D1 & _ & D2). split; [lia|exact D2].
  Qed.
  Lemma clausal_p_exact f : exact_front i f -> p_exact p f.
  Proof.
    intros [H1 H2]. split; [exact H1|]. intros c. rewrite H2. apply (clausal_front pe p i Hpe Hp Hi).
  Qed.

  Lemma uniform_mixed : weights_mixed p -> forall ro w, In ro (in_objs i) -> uniform ro w -> w = 1.
  Proof.
    intros Hm ro w Hro [Hu1 Hu2]. destruct (clausal_lits pe p i Hpe Hp Hi) as (g & Hobj & _).
    rewrite Hobj in Hro. apply in_map_iff in Hro. destruct Hro as (ob & <- & Hob). cbn [fst] in *.
    apply (Hm ob w Hob).
    - intros He. apply Hu1. rewrite He. reflexivity.
    - intros cw Hcw. exact (Hu2 (g (fst cw), snd cw) (in_map _ _ _ Hcw)).
  Qed.

  Section Reindexed.
    Variables (r : reindexer) (j : inst).
    Hypothesis Hr : reindexing i = Some (r, j).
    Hypothesis Hm : weights_mixed p.

    Let HIi : inst_ok i := clausal_inst_ok pe p i Hpe Hp Hi.

    Lemma reverse_p_sol c sol : pareto_optimal (in_cls j) (in_objs j) c ->
      valid_solution (in_cls j) (in_objs j) (n_orig j) c sol -> p_sol p c (reverse_sol r sol).
    Proof.
      intros Hopt (Hlen & Hall & b & Hext & Hf & Hc).
      destruct (clausal_vars pe p i Hpe Hp Hi) as (Hmo & _ & _).
      assert (Hn0 : vm_next (pa_vm p) = S (vm_max_orig (in_vm i))) by (rewrite Hmo; apply (po_vm p Hp)).
      split.
      - unfold reverse_sol, truncate. rewrite firstn_length.
        rewrite (rx_old _ _ _ (reindexing_ok i r j Hr)). lia.
      - intros a Ha. set (f := ri_map r).
        set (a2 := fun v => if v <? vm_next (pa_vm p) then a v else b (f v)).
        assert (Hocc : forall v, occurs i v -> b (f v) = a2 v).
        { intros v Hv. unfold a2. destruct (Nat.ltb_spec v (vm_next (pa_vm p))) as [Hlt|]; [|reflexivity].
          assert (Hle : v <= vm_max_orig (in_vm i)) by lia.
          destruct (reverse_sol_value i j r Hr sol v) as [Hval _]. specialize (Hval Hle Hv). fold f in Hval.
          assert (Hfv : f v < n_orig j).
          { rewrite (reindex_n_orig i j r Hr). pose proof (ri_dom_out i j r Hr v Hv) as Ho. apply nth_lt in Ho.
            rewrite (rv_len r (rx_inv _ _ _ (reindexing_ok i r j Hr))) in Ho. exact Ho. }
          destruct (Hall (f v) Hfv) as [x Hx]. rewrite (Hext _ _ Hx). symmetry.
          apply (Ha v x). apply var_value_nth. rewrite Hval. now apply var_value_nth. }
        assert (Hif : feasible (in_cls i) a2).
        { apply (feasible_occurs i (fun v => b (f v)) a2 Hocc). now apply (reindex_feasible i j r Hr). }
        assert (Hic : costs (in_objs i) a2 = c).
        { rewrite <- (costs_occurs i (fun v => b (f v)) a2 Hocc). rewrite <- Hc. symmetry.
          apply (reindex_costs_eq i j r Hr b (io_ok i HIi)). now apply uniform_mixed. }
        assert (Hio : pareto_optimal (in_cls i) (in_objs i) c).
        { apply (reindex_front i j r Hr c (io_ok i HIi)); [now apply uniform_mixed|assumption]. }
        assert (Hag : forall v, v < vm_next (pa_vm p) -> a2 v = a v).
        { intros v Hv. unfold a2. apply Nat.ltb_lt in Hv. now rewrite Hv. }
        split.
        + apply (p_feasible_agree p a2 a Hp Hag). now apply (clausal_sound pe p i Hpe Hp Hi).
        + rewrite <- (p_costs_agree p a2 a Hp Hag). rewrite <- Hic.
          apply (clausal_opt_costs pe p i Hpe Hp Hi a2 Hif). now rewrite Hic.
    Qed.

    Lemma reindex_p_front f : sound_front j f -> p_front p (front_convert (reverse_sol r) f).
    Proof.
      intros [H1 H2]. split; [now rewrite front_convert_costs|]. apply Forall_forall. intros nd Hnd.
      unfold front_convert in Hnd. apply in_map_iff in Hnd. destruct Hnd as (nd0 & <- & Hnd0).
      rewrite Forall_forall in H2. destruct (H2 nd0 Hnd0) as (A & B & _ & C). unfold nd_convert. cbn [nd_costs nd_sols].
      split; [|split].
      - apply (clausal_front pe p i Hpe Hp Hi).
        now apply (reindex_front i j r Hr _ (io_ok i HIi) (uniform_mixed Hm)).
      - intros He. apply map_eq_nil in He. contradiction.
      - apply Forall_forall. intros s Hs. apply in_map_iff in Hs. destruct Hs as (s0 & <- & Hs0).
        apply reverse_p_sol; auto.
    Qed.
    Lemma reindex_p_exact f : exact_front j f -> p_exact p (front_convert (reverse_sol r) f).
    Proof.
      intros [H1 H2]. split; rewrite front_convert_costs; [exact H1|]. intros c. rewrite H2.
      rewrite (reindex_front i j r Hr _ (io_ok i HIi) (uniform_mixed Hm)).
      apply (clausal_front pe p i Hpe Hp Hi).
    Qed.
  End Reindexed.
End Front.

(** ** Runs from any starting state (in particular with a logger attached) *)
Section Start.
  Context {I : enc_impl} (SP : enc_spec I).
  Variables (i : inst) (o : kopts).
  Hypothesis HI : inst_ok i.
  Hypothesis HE : enum_ok i o.
  Variables (al : alg) (s0 : st I).
  Hypothesis H0 : start SP i o s0.
  Hypothesis Hb : al = ABiOptSat -> bi_start i s0.

  Lemma start_first E l : oracle_ok E -> lims_pos l ->
    match alg_solve al E l s0 with
    | (Done _, s') => exact_front i (s_front s') /\ sound_front i (s_front s')
    | (Exit x, s') => xok E (bound SP i s0) x /\ sound_front i (s_front s')
    end.
  Proof.
    intros HO Hl. pose proof (wp_run _ _ _ _ (first_ok SP i o HI HE s0 H0 al E l Hb HO Hl)) as H.
    destruct (alg_solve al E l s0) as [[[]|x] s'].
    - exact (first_done SP i o HI s0 H0 al s' H).
    - destruct H as (H1 & Ln & H2 & H3 & _). split; [exact H1|].
      eapply (pts_sound SP i o HI s0 H0); eauto.
  Qed.
End Start.

Lemma attach_start {I} (SP : enc_spec I) i o s : start SP i o s -> start SP i o (snd (attach_logger s)).
Proof. intros []. constructor; assumption. Qed.
Lemma attach_bi_start {I} i (s : st I) : bi_start i s -> bi_start i (snd (attach_logger s)).
Proof. intros (o0 & o1 & e0 & e1 & H). exists o0, o1, e0, e1. exact H. Qed.
Lemma attach_bound {I} (SP : enc_spec I) i (s : st I) : bound SP i (snd (attach_logger s)) = bound SP i s.
Proof. reflexivity. Qed.

(** ** The command-line pipeline *)

(** The enumeration options that work on the problem: none, solutions with the default
    blocking clause (the one the command line uses), or Pareto-MCSs if the objectives are over
    original variables: all soft clauses are units, or the instance is reindexed. *)
Definition enum_fits (reindex : bool) (p : parsed) (o : kopts) : Prop :=
  match o_enum o with
  | NoEnum => True
  | Solutions _ => forall s, o_bcg o s = default_blocking_clause s
  | PMCSs _ => reindex = true \/
      forall ob cw, In ob (pa_objs p) -> In cw (fst ob) -> exists l, fst cw = [l]
  end.
(** No soft clause is repeated within an objective *)
Definition soft_distinct (p : parsed) : Prop :=
  forall ob, In ob (pa_objs p) -> NoDup (map fst (fst ob)).
(** Objectives with the same value in all solutions have no falsified soft clauses there *)
Definition p_no_fixed_cost (p : parsed) : Prop := forall ob, In ob (pa_objs p) ->
  (forall a b, p_feasible p a -> p_feasible p b -> soft_cost ob a = soft_cost ob b) ->
  forall a, p_feasible p a -> soft_cost ob a = snd ob.
(** What core boosting needs on top *)
Definition cb_fits (al : alg) (o : kopts) (cb : option cb_opts) (E : environ) (p : parsed) : Prop :=
  forall opts, cb = Some opts ->
    core_nodup E /\ soft_distinct p /\ (cb_reset opts = true -> o_store_cnf o = true) /\
    (al = ABiOptSat -> p_no_fixed_cost p).
(** Core boosting panics on infeasible problems with core minimization or trimming *)
Definition cb_dead (o : kopts) (cb : option cb_opts) (p : parsed) : Prop :=
  cb <> None /\ (forall a, ~ p_feasible p a) /\
  (o_core_minimization o = true \/ o_core_trimming o = true).

(** Bound on loop iterations, in terms of the instance that is solved *)
Definition solved_inst (pe : pb_encoder) (reindex : bool) (p : parsed) : option inst :=
  match to_clausal pe p with
  | POk i => match maybe_reindex reindex i with Some (_, j) => Some j | None => None end
  | _ => None
  end.

Lemma NoDup_map_inj {A B} (f : A -> B) l : (forall x y, In x l -> In y l -> f x = f y -> x = y) ->
  NoDup l -> NoDup (map f l).
Proof.
  intros Hf H. induction H as [|x l Hx H IH]; cbn; constructor.
  - intros G. apply in_map_iff in G. destruct G as (y & G1 & G2). apply Hx.
    rewrite (Hf x y); [exact G2|now left|now right|now symmetry].
  - apply IH. intros u v Hu Hv. apply Hf; now right.
Qed.
Lemma obj_new_iter_nodup ls off k : NoDup (map fst ls) -> NoDup (map fst (obj_iter (obj_new ls off k))).
Proof.
  intros H. unfold obj_new. destruct ls as [|[l w] r]; [constructor|]. destruct (existsb _ _); cbn [obj_iter].
  - apply hm_collect_nodup.
  - rewrite map_map. cbn [fst]. rewrite map_id. exact H.
Qed.
Lemma obj_new_offset ls off k : obj_offset (obj_new ls off k) = off.
Proof. unfold obj_new. destruct ls as [|[l w] r]; [reflexivity|]. destruct (existsb _ _); reflexivity. Qed.
Lemma empty_front p : p_front p [].
Proof. split; constructor. Qed.
Lemma empty_exact p : (forall a, ~ p_feasible p a) -> p_exact p [].
Proof.
  intros H. split; [constructor|]. intros c. split; [intros []|]. intros [(a & Ha & _) _]. exact (H a Ha).
Qed.

(** *** The instance that is solved *)
Section Solved.
  Variables (pe : pb_encoder) (reindex : bool) (p : parsed) (i j : inst) (r : option reindexer).
  Hypothesis Hpe : pb_enc_ok pe.
  Hypothesis Hp : parsed_ok p.
  Hypothesis Hi : to_clausal pe p = POk i.
  Hypothesis Hj : maybe_reindex reindex i = Some (r, j).

  Lemma sv_cases : (reindex = false /\ r = None /\ j = i) \/
    (reindex = true /\ exists r0, r = Some r0 /\ reindexing i = Some (r0, j)).
  Proof.
    unfold maybe_reindex in Hj. destruct reindex.
    - right. split; [reflexivity|]. destruct (reindexing i) as [[r0 j0]|] eqn:e; [|discriminate].
      injection Hj as <- <-. eauto.
    - left. injection Hj as <- <-. auto.
  Qed.
  Lemma sv_i_ok : inst_ok i.
  Proof. exact (clausal_inst_ok pe p i Hpe Hp Hi). Qed.
  Lemma sv_ok : inst_ok j.
  Proof.
    destruct sv_cases as [(_ & _ & ->)|(_ & r0 & _ & Hr)]; [exact sv_i_ok|].
    exact (reindex_inst_ok i j r0 Hr sv_i_ok).
  Qed.
  Lemma sv_enum o : enum_fits reindex p o -> enum_ok j o.
  Proof.
    intros Hen. unfold enum_fits in Hen. unfold enum_ok. destruct sv_cases as [(e & _ & ->)|(e & r0 & _ & Hr)].
    - destruct (o_enum o); [exact Logic.I| |].
      + split; [exact Hen|]. exact (clausal_orig_determined pe p i Hpe Hp Hi).
      + destruct Hen as [Hen'|Hen']; [congruence|]. intros ro v Hro Hv.
        destruct (clausal_lits pe p i Hpe Hp Hi) as (g & Hobj & Hg & _).
        rewrite Hobj in Hro. apply in_map_iff in Hro. destruct Hro as (ob & <- & Hob). cbn [fst] in Hv.
        unfold lits_vars in Hv. rewrite !map_map in Hv. apply in_map_iff in Hv. destruct Hv as (cw & <- & Hcw).
        destruct (Hen' ob cw Hob Hcw) as (l & Hl). cbn [fst]. rewrite Hl, Hg.
        assert (Hlt : lvar l < vm_next (pa_vm p)).
        { apply (po_softs p Hp ob cw); auto. rewrite Hl. now left. }
        destruct (clausal_vars pe p i Hpe Hp Hi) as (Hmo & _ & _). unfold n_orig.
        rewrite Hmo, <- (po_vm p Hp). exact Hlt.
    - destruct (o_enum o); [exact Logic.I| |].
      + split; [exact Hen|]. intros a b Ha Hb Hs _. rewrite (costs_occurs j a b); [apply wd_refl|].
        intros v Hv. apply Hs. rewrite (reindex_n_orig i j r0 Hr).
        pose proof (rx_pos _ _ _ (reindexing_ok i r0 j Hr)) as Hpos. pose proof sv_ok as HJ.
        assert (Hle : v <= vm_max_enc (in_vm j)).
        { destruct Hv as [Hv|(ro & Hro & Hv)]; [now apply (io_cls j HJ)|now apply (io_objs j HJ ro)]. }
        rewrite (rx_vm _ _ _ (reindexing_ok i r0 j Hr)) in Hle. cbn in Hle. lia.
      + exact (reindex_objs_orig i j r0 Hr sv_i_ok).
  Qed.
  Lemma sv_length : length (in_objs j) = length (pa_objs p).
  Proof.
    destruct (clausal_lits pe p i Hpe Hp Hi) as (g & Hobj & _).
    assert (length (in_objs i) = length (pa_objs p)) by (rewrite Hobj; apply map_length).
    destruct sv_cases as [(_ & _ & ->)|(_ & r0 & _ & Hr)]; [assumption|].
    rewrite (rx_objs _ _ _ (reindexing_ok i r0 j Hr)), map_length, build_length. assumption.
  Qed.
  Lemma sv_infeasible : (forall a, ~ feasible (in_cls j) a) -> forall a, ~ p_feasible p a.
  Proof.
    intros H a Ha. destruct (clausal_complete pe p i Hpe Hp Hi a Ha) as (b & _ & Hb & _).
    destruct sv_cases as [(_ & _ & e)|(_ & r0 & _ & Hr)].
    - apply (H b). now rewrite e.
    - destruct (reindex_back i j r0 Hr b) as (d & Hd). apply (H d). apply (reindex_feasible i j r0 Hr).
      eapply (feasible_occurs i b); [|exact Hb]. intros v Hv. symmetry. now apply Hd.
  Qed.
  Lemma sv_feasible : (exists a, p_feasible p a) -> exists a, feasible (in_cls j) a.
  Proof.
    intros (a & Ha). destruct (clausal_complete pe p i Hpe Hp Hi a Ha) as (b & _ & Hb & _).
    destruct sv_cases as [(_ & _ & e)|(_ & r0 & _ & Hr)].
    - exists b. now rewrite e.
    - destruct (reindex_back i j r0 Hr b) as (d & Hd). exists d. apply (reindex_feasible i j r0 Hr).
      eapply (feasible_occurs i b); [|exact Hb]. intros v Hv. symmetry. now apply Hd.
  Qed.
  Lemma sv_distinct : soft_distinct p -> lits_distinct j.
  Proof.
    intros HD. destruct (clausal_lits pe p i Hpe Hp Hi) as (g & Hobj & _ & _ & Hinj).
    assert (Hdi : lits_distinct i).
    { intros ro Hro. rewrite Hobj in Hro. apply in_map_iff in Hro. destruct Hro as (ob & <- & Hob).
      cbn [fst]. rewrite map_map. cbn [fst]. rewrite <- (map_map fst g). apply NoDup_map_inj; [|now apply HD].
      intros x y Hx Hy. apply in_map_iff in Hx, Hy. destruct Hx as (cx & <- & Hx). destruct Hy as (cy & <- & Hy).
      now apply (Hinj ob ob). }
    destruct sv_cases as [(_ & _ & ->)|(_ & r0 & _ & Hr)]; [exact Hdi|].
    intros ro Hro. rewrite (rx_objs _ _ _ (reindexing_ok i r0 j Hr)) in Hro. apply in_map_iff in Hro.
    destruct Hro as (ob & <- & Hob). cbn [fst].
    assert (G : exists k ri, In ri (in_objs i) /\ ob = obj_new (fst ri) (snd ri) k).
    { clear -Hob. revert Hob. generalize 0 as k. induction (in_objs i) as [|ri rs IH]; intros k; cbn [build_objs]; [intros []|].
      intros [<-|H]; [exists k, ri; split; [now left|reflexivity]|]. destruct (IH _ H) as (k' & ri' & H1 & H2).
      exists k', ri'. split; [now right|exact H2]. }
    destruct G as (k & ri & Hri & ->).
    assert (Hnd : NoDup (map fst (obj_iter (obj_new (fst ri) (snd ri) k)))).
    { apply obj_new_iter_nodup. exact (Hdi ri Hri). }
    rewrite map_map.
    rewrite (map_ext _ (fun lw => rename_lit (ri_map r0) (fst lw))) by (intros []; reflexivity).
    rewrite <- (map_map fst (rename_lit (ri_map r0))). apply NoDup_map_inj; [|exact Hnd].
    intros x y Hx Hy He.
    assert (Hocc : forall z, In z (map fst (obj_iter (obj_new (fst ri) (snd ri) k))) -> occurs i (lvar z)).
    { intros z Hz. right. exists ri. split; [exact Hri|]. unfold lits_vars. apply in_map.
      now apply (obj_new_lits (fst ri) (snd ri) k). }
    unfold rename_lit in He. injection He as H1 H2.
    apply (reindex_inj i j r0 Hr) in H1; [|now apply Hocc|now apply Hocc].
    destruct x, y; cbn in *; congruence.
  Qed.
  Lemma sv_no_fixed : (reindex = true -> weights_mixed p) -> p_no_fixed_cost p -> no_fixed_cost j.
  Proof.
    intros Hm HN.
    (* every solution of the problem has a counterpart with the same costs *)
    assert (Hup : forall a, p_feasible p a -> exists b, feasible (in_cls j) b /\ costs (in_objs j) b = p_costs p a).
    { intros a Ha. destruct (clausal_complete pe p i Hpe Hp Hi a Ha) as (b & _ & Hb & Hc).
      destruct sv_cases as [(_ & _ & e)|(e & r0 & _ & Hr)].
      - exists b. now rewrite e.
      - destruct (reindex_back i j r0 Hr b) as (d & Hd). exists d. split.
        + apply (reindex_feasible i j r0 Hr). eapply (feasible_occurs i b); [|exact Hb]. intros v Hv. symmetry. now apply Hd.
        + rewrite (reindex_costs_eq i j r0 Hr d (io_ok i sv_i_ok) (uniform_mixed pe p i Hpe Hp Hi (Hm e))).
          rewrite <- Hc. apply costs_occurs. exact Hd. }
    assert (Hoff : map snd (in_objs j) = map snd (pa_objs p)).
    { destruct (clausal_lits pe p i Hpe Hp Hi) as (g & Hobj & _).
      assert (G : map snd (in_objs i) = map snd (pa_objs p)) by (rewrite Hobj, map_map; reflexivity).
      destruct sv_cases as [(_ & _ & ->)|(_ & r0 & _ & Hr)]; [exact G|].
      rewrite (rx_objs _ _ _ (reindexing_ok i r0 j Hr)), map_map, <- G. clear. generalize 0 as k.
      induction (in_objs i) as [|ri rs IH]; intros k; cbn [build_objs map]; [reflexivity|]. rewrite IH. f_equal.
      apply obj_new_offset. }
    intros ro Hro Hconst a Ha. apply In_nth_error in Hro. destruct Hro as (k & Hk).
    destruct (nth_error (pa_objs p) k) as [ob|] eqn:Hob.
    2: { apply nth_error_None in Hob. assert (k < length (in_objs j)) by (apply nth_error_Some; congruence).
         rewrite sv_length in *. lia. }
    assert (Hsnd : snd ro = snd ob).
    { pose proof (f_equal (fun l => nth_error l k) Hoff) as H. cbn beta in H.
      rewrite (map_nth_error _ _ _ Hk), (map_nth_error _ _ _ Hob) in H. congruence. }
    assert (Hval : forall b d, costs (in_objs j) d = p_costs p b -> obj_value ro d = soft_cost ob b).
    { intros b d H. pose proof (f_equal (fun l => nth_error l k) H) as G. cbn beta in G. unfold costs, p_costs in G.
      rewrite (map_nth_error _ _ _ Hk), (map_nth_error _ _ _ Hob) in G. congruence. }
    assert (Hpa : exists a0, p_feasible p a0).
    { destruct sv_cases as [(_ & _ & e)|(_ & r0 & _ & Hr)].
      - exists a. apply (clausal_sound pe p i Hpe Hp Hi). now rewrite e in Ha.
      - exists (fun v => a (ri_map r0 v)). apply (clausal_sound pe p i Hpe Hp Hi).
        now apply (reindex_feasible i j r0 Hr). }
    destruct Hpa as (a0 & Ha0). destruct (Hup a0 Ha0) as (b0 & Hb0 & Hc0).
    rewrite (Hconst a b0 Ha Hb0), (Hval a0 b0 Hc0), Hsnd.
    apply (HN ob (nth_error_In _ _ Hob)); [|exact Ha0].
    intros x y Hx Hy. destruct (Hup x Hx) as (bx & Hbx & Hcx). destruct (Hup y Hy) as (by' & Hby & Hcy).
    rewrite <- (Hval x bx Hcx), <- (Hval y by' Hcy). now apply Hconst.
  Qed.
  Lemma sv_front f : (reindex = true -> weights_mixed p) -> sound_front j f -> p_front p (post_solve r f).
  Proof.
    intros Hm. destruct sv_cases as [(_ & -> & ->)|(e & r0 & -> & Hr)].
    - now apply (clausal_p_front pe p i Hpe Hp Hi).
    - apply (reindex_p_front pe p i Hpe Hp Hi r0 j Hr). now apply Hm.
  Qed.
  Lemma sv_exact f : (reindex = true -> weights_mixed p) -> exact_front j f -> p_exact p (post_solve r f).
  Proof.
    intros Hm. destruct sv_cases as [(_ & -> & ->)|(e & r0 & -> & Hr)].
    - now apply (clausal_p_exact pe p i Hpe Hp Hi).
    - apply (reindex_p_exact pe p i Hpe Hp Hi r0 j Hr). now apply Hm.
  Qed.
End Solved.

Lemma post_solve_nil r : post_solve r [] = [].
Proof. destruct r; reflexivity. Qed.

Theorem main_correct I (SP : enc_spec I) T (TS : tot_spec SP T) pe reindex al o cb E l p :
  pb_enc_ok pe -> parsed_ok p -> enum_fits reindex p o -> oracle_ok E -> lims_pos l ->
  (reindex = true -> weights_mixed p) -> cb_fits al o cb E p ->
  match run_main T pe reindex al o cb E l p with
  | RFront finished f => p_front p f /\ (finished = true -> p_exact p f)
  | RErr => True
  | RPanic =>
      (reindex = true /\ exists i, to_clausal pe p = POk i /\ forall v, ~ occurs i v) \/ cb_dead o cb p
  | ROutOfFuel =>
      (exists j, solved_inst pe reindex p = Some j /\ ev_fuel E <= iter_bound j) \/ cb_dead o cb p
  end.
Proof.
  intros Hpe Hp Hen HO Hl Hm Hcb. unfold run_main, run_inst.
  pose proof (clausal_no_panic pe p Hpe Hp) as Hnp.
  destruct (to_clausal pe p) as [i| |] eqn:Hi; [|exact Logic.I|congruence].
  destruct (maybe_reindex reindex i) as [[r j]|] eqn:Hre.
  2: { left. unfold maybe_reindex in Hre. destruct reindex; [|discriminate].
       destruct (reindexing i) as [[r j]|] eqn:Hri; [discriminate|]. split; [reflexivity|].
       exists i. split; [reflexivity|]. now apply reindexing_panic. }
  pose proof (sv_ok pe reindex p i j r Hpe Hp Hi Hre) as HJ.
  pose proof (sv_enum pe reindex p i j r Hpe Hp Hi Hre o Hen) as HEj.
  pose proof (fun f => sv_front pe reindex p i j r Hpe Hp Hi Hre f Hm) as Hpf.
  pose proof (fun f => sv_exact pe reindex p i j r Hpe Hp Hi Hre f Hm) as Hpx.
  destruct (match al with ABiOptSat => negb (length (in_objs j) =? 2) | _ => false end) eqn:H2; [exact Logic.I|].
  assert (H2' : al = ABiOptSat -> length (in_objs j) = 2).
  { intros ->. apply negb_false_iff, Nat.eqb_eq in H2. exact H2. }
  destruct (alg_new_some SP j o HJ al H2') as (s & Hs). rewrite Hs.
  assert (Hsolved : solved_inst pe reindex p = Some j) by (unfold solved_inst; now rewrite Hi, Hre).
  destruct cb as [opts|]; cbn [run_alg].
  - destruct (Hcb opts eq_refl) as (HN & HSD & Hrs & Hbi).
    pose proof (sv_distinct pe reindex p i j r Hpe Hp Hi Hre HSD) as HD.
    set (bs := [BAttach; Boost E opts]).
    assert (Hbs : boosts_ok o bs) by (repeat constructor; assumption).
    assert (Hf : s_front (snd (alg_core_boost T E opts (snd (attach_logger s)))) = []).
    { rewrite f_core_boost. cbn. exact (sa_front _ _ _ _ (new_start SP j o HJ al s Hs)). }
    assert (Hrun : boosts T bs s = alg_core_boost T E opts (snd (attach_logger s))).
    { unfold bs. cbn [boosts]. destruct (alg_core_boost _ _ _ _) as [[[|]|x] s1]; reflexivity. }
    destruct (alg_core_boost T E opts (snd (attach_logger s))) as [[b|x] s1]; cbn [handle snd] in *.
    + destruct b.
      * pose proof (cb_first TS j o HJ HD al s bs Hs Hbs s1 Hrun
          (fun Ha => sv_no_fixed pe reindex p i j r Hpe Hp Hi Hre Hm (Hbi Ha)) E l HEj HO Hl) as HF.
        destruct (alg_solve al E l s1) as [[[]|x] s']; cbn [handle].
        -- destruct HF as [F1 F2]. split; [now apply Hpf|]. intros _. now apply Hpx.
        -- destruct HF as [F1 F2]. destruct x as [t|e| |].
           ++ split; [now apply Hpf|discriminate].
           ++ exact Logic.I.
           ++ destruct F1 as [F1|[F1 _]]; [destruct F1|discriminate].
           ++ destruct F1 as [F1|[_ F1]]; [destruct F1|]. left. eauto.
      * rewrite Hf, post_solve_nil. split; [apply empty_front|]. intros _. apply empty_exact.
        apply (sv_infeasible pe reindex p i j r Hpe Hp Hi Hre). exact (cb_false TS j o HJ HD al s bs Hs Hbs s1 Hrun).
    + assert (HX : proper_exit j E (Exit x) \/ cb_dead o (Some opts) p).
      { destruct (cb_exit TS j o HJ HD al s bs Hs Hbs x s1 Hrun) as [[D1 D2]|(E' & o' & [D|[D|[]]] & D2)].
        - right. split; [discriminate|]. split; [|exact D2]. now apply (sv_infeasible pe reindex p i j r Hpe Hp Hi Hre).
        - discriminate.
        - injection D as -> ->. now left. }
      destruct x as [t|e| |].
      * rewrite Hf, post_solve_nil. split; [apply empty_front|discriminate].
      * exact Logic.I.
      * destruct HX as [HX|HX]; [destruct HX|now right].
      * destruct HX as [HX|HX]; [left|now right]. cbn in HX. eauto.
  - assert (Hst : start SP j o (snd (attach_logger s))).
    { apply attach_start. exact (new_start SP j o HJ al s Hs). }
    assert (Hbi : al = ABiOptSat -> bi_start j (snd (attach_logger s))).
    { intros Hal. apply attach_bi_start. exact (new_bi SP j o HJ al s Hs Hal). }
    pose proof (start_first SP j o HJ HEj al _ Hst Hbi E l HO Hl) as HF.
    destruct (alg_solve al E l (snd (attach_logger s))) as [[[]|x] s']; cbn [handle].
    + destruct HF as [F1 F2]. split; [now apply Hpf|]. intros _. now apply Hpx.
    + destruct HF as [F1 F2].
      destruct x as [t|e| |].
      * split; [now apply Hpf|discriminate].
      * exact Logic.I.
      * destruct F1 as [F1|[F1 _]]; [destruct F1|discriminate].
      * destruct F1 as [F1|[_ F1]]; [destruct F1|]. left. exists j. split; [exact Hsolved|].
        rewrite attach_bound, (bound_eq SP j o s (new_fresh SP j o HJ al s Hs)) in F1. exact F1.
Qed.

(** Without disturbance the pipeline finishes with the exact front. *)
Theorem main_finishes I (SP : enc_spec I) T (TS : tot_spec SP T) pe reindex al o cb E p j :
  pb_enc_ok pe -> parsed_ok p -> enum_fits reindex p o -> oracle_ok E -> calm E ->
  (cb <> None -> reindex = true -> weights_mixed p) -> cb_fits al o cb E p -> ~ cb_dead o cb p ->
  solved_inst pe reindex p = Some j -> (al = ABiOptSat -> length (pa_objs p) = 2) ->
  iter_bound j < ev_fuel E ->
  exists f, run_main T pe reindex al o cb E lims_none p = RFront true f.
Proof.
  intros Hpe Hp Hen HO HC Hm Hcb Hdead Hj H2 HF. unfold solved_inst in Hj. unfold run_main, run_inst.
  destruct (to_clausal pe p) as [i| |] eqn:Hi; try discriminate.
  destruct (maybe_reindex reindex i) as [[r j']|] eqn:Hre; [|discriminate]. injection Hj as ->.
  pose proof (sv_ok pe reindex p i j r Hpe Hp Hi Hre) as HJ.
  pose proof (sv_enum pe reindex p i j r Hpe Hp Hi Hre o Hen) as HEj.
  pose proof (sv_length pe reindex p i j r Hpe Hp Hi Hre) as Hlen.
  assert (H2b : (match al with ABiOptSat => negb (length (in_objs j) =? 2) | _ => false end) = false).
  { destruct al; try reflexivity. rewrite Hlen, (H2 eq_refl). reflexivity. }
  rewrite H2b.
  assert (H2' : al = ABiOptSat -> length (in_objs j) = 2) by (intros Hal; rewrite Hlen; auto).
  destruct (alg_new_some SP j o HJ al H2') as (s & Hs). rewrite Hs.
  destruct cb as [opts|]; cbn [run_alg].
  - destruct (Hcb opts eq_refl) as (HN & HSD & Hrs & Hbi).
    pose proof (sv_distinct pe reindex p i j r Hpe Hp Hi Hre HSD) as HD.
    set (bs := [BAttach; Boost E opts]).
    assert (Hbs : boosts_ok o bs) by (repeat constructor; assumption).
    assert (Hrun : boosts T bs s = alg_core_boost T E opts (snd (attach_logger s))).
    { unfold bs. cbn [boosts]. destruct (alg_core_boost _ _ _ _) as [[[|]|x] s1]; reflexivity. }
    destruct (cb_finishes TS j o HJ HD al s bs Hs Hbs) as (b & s1 & Hb).
    + constructor; [exact Logic.I|]. constructor; [|constructor]. now split.
    + intros [D1 D2]. apply Hdead. split; [discriminate|]. split; [|exact D2].
      now apply (sv_infeasible pe reindex p i j r Hpe Hp Hi Hre).
    + rewrite Hrun in Hb. rewrite Hb. cbn [handle]. destruct b; [|eauto]. rewrite <- Hrun in Hb.
      destruct (cb_term TS j o HJ HD al s bs Hs Hbs s1 Hb
        (fun Ha => sv_no_fixed pe reindex p i j r Hpe Hp Hi Hre (Hm ltac:(discriminate)) (Hbi Ha)) E HEj HO HC HF) as (s' & Hs').
      rewrite Hs'. cbn [handle]. eauto.
  - assert (Hst : start SP j o (snd (attach_logger s))).
    { apply attach_start. exact (new_start SP j o HJ al s Hs). }
    assert (Hbi : al = ABiOptSat -> bi_start j (snd (attach_logger s))).
    { intros Hal. apply attach_bi_start. exact (new_bi SP j o HJ al s Hs Hal). }
    assert (Hl : lims_pos lims_none) by (repeat split; discriminate).
    pose proof (start_first SP j o HJ HEj al _ Hst Hbi E lims_none HO Hl) as HS.
    pose proof (wp_run _ _ _ _ (calm_solve SP E HC al (snd (attach_logger s)))) as C.
    destruct (alg_solve al E lims_none (snd (attach_logger s))) as [[[]|x] s']; cbn [handle]; [eauto|]. exfalso.
    destruct HS as [G _]. rewrite attach_bound, (bound_eq SP j o s (new_fresh SP j o HJ al s Hs)) in G.
    unfold calmX in C. destruct G as [G|[-> G]]; [|lia]. destruct x as [t|[]| |]; cbn in *; tauto.
Qed.
