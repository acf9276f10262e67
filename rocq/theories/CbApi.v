(** * Core boosting through the API *)
From Coq Require Import List Bool Arith Lia ZArith.
From Verif Require Import Base BaseLemmas Spec MTypes MKernel MPMinimal MLowerBounding MBiOptSat MOll
  EncSpec TotSpec Wp Sem Kern Yield PMin PMinTop LBTop Linsu BiTop Init ApiSpec Ext Blk Struct Book Api
  ApiThm FeasInv Intr ApiTop OllSide OllData OllThm OllRun OllRelax OllMain CbMerge CbTop CbSpec.
Import ListNotations.

(** ** A new solver is ready *)
Section Ready.
  Context {I : enc_impl} (SP : enc_spec I).
  Notation st := (st I).
  Variables (i : inst) (o : kopts).
  Hypothesis HI : inst_ok i.

  Lemma init_encs_const reserve os : forall next es next' k ob, init_encs (I := I) reserve os next = (es, next') ->
    nth_error os k = Some ob -> obj_is_constant ob = true -> nth_error es k = Some EConstant.
  Proof.
    induction os as [|ob0 os IH]; intros next es next' k ob H Hk Hc; [destruct k; discriminate|].
    cbn [init_encs] in H.
    match type of H with (let '(_, _) := ?x in _) = _ => destruct x as [e n1] eqn:He end.
    destruct (init_encs reserve os n1) as [es1 n2] eqn:Hr. injection H as <- <-.
    destruct k as [|k]; cbn [nth_error] in *.
    - injection Hk as ->. destruct ob; cbn in Hc; try discriminate. congruence.
    - eapply IH; eauto.
  Qed.

  Lemma kernel_ready s : kernel_new (in_cls i) (build_objs 0 (in_objs i)) (in_vm i) o = Some s ->
    ready (SP := SP) i o s /\ n_solve_calls (s_stats s) = 0.
  Proof.
    intros H. destruct (kernel_start SP i o HI) as (s' & H1 & H2).
    assert (s' = s) by congruence. subst s'. split.
    - constructor.
      + now apply (fresh_start SP i o).
      + unfold kernel_new in H. destruct (vm_max_var (in_vm i)); [|discriminate].
        destruct (init_encs _ _ _) as [es nx]. injection H as <-. repeat split; discriminate.
      + apply (fs_me _ _ _ _ _ _ H2).
      + intros k ob Hk Hc. rewrite (fs_objs _ _ _ _ _ _ H2) in Hk.
        unfold kernel_new in H. destruct (vm_max_var (in_vm i)); [|discriminate].
        destruct (init_encs _ _ _) as [es nx] eqn:He. injection H as <-. cbn.
        eapply init_encs_const; eauto.
      + unfold kernel_new in H. destruct (vm_max_var (in_vm i)); [|discriminate].
        destruct (init_encs _ _ _) as [es nx]. injection H as <-. reflexivity.
    - now rewrite (fs_stats _ _ _ _ _ _ H2).
  Qed.
  Lemma new_ready al s : alg_new al i o = Some s ->
    ready (SP := SP) i o s /\ n_solve_calls (s_stats s) = 0.
  Proof.
    intros H. apply kernel_ready. destruct al; cbn in H.
    - exact H.
    - exact H.
    - unfold bi_new in H. destruct (kernel_new _ _ _ _) as [s'|]; [|discriminate].
      destruct (_ =? _); [congruence|discriminate].
  Qed.

  Lemma two_le_bound : 2 * list_sum (totals (build_objs 0 (in_objs i))) + 1 <= iter_bound i.
  Proof.
    unfold iter_bound. rewrite (totals_build _ 0). pose proof (Nat.pow_nonzero 2 (n_orig i)). lia.
  Qed.
  Lemma obj_distinct : (forall r, In r (in_objs i) -> NoDup (map fst (fst r))) ->
    forall ob, In ob (build_objs 0 (in_objs i)) -> NoDup (map fst (obj_iter ob)).
  Proof.
    intros H ob Ho. destruct (build_In _ _ _ Ho) as (r & j & Hr & ->). specialize (H r Hr).
    unfold obj_new. destruct (fst r) as [|[l w] ls] eqn:er; [constructor|].
    destruct (existsb _ _); cbn [obj_iter].
    - apply hm_collect_nodup.
    - rewrite map_map. cbn [fst]. now rewrite map_id.
  Qed.
End Ready.

(** ** What core boosting keeps *)
(** A later problem, as far as core boosting and resetting the oracle are concerned *)
Record pstat {I} (p p' : prob I) : Prop := mkPstat {
  ps_orig : vm_max_orig (p_vm p') = vm_max_orig (p_vm p);
  ps_enc : vm_max_enc (p_vm p') = vm_max_enc (p_vm p);
  ps_next : Nat.min (vm_next (p_vm p)) (S (vm_max_enc (p_vm p))) <= vm_next (p_vm p');
  ps_objs : length (p_objs p') = length (p_objs p);
  ps_encs : length (p_encs p') = length (p_encs p) }.
Section BoostKeeps.
  Context {I : enc_impl} {SP : enc_spec I} {T : tot_impl I} (TS : tot_spec SP T).
  Notation M := (M I).
  Notation st := (st I).
  Variable E : environ.
  Variable P : option (list nat * nd_point assignment) -> st -> Prop.
  Variable V : assignment -> Prop.
  Variable X : exit -> st -> Prop.
  Hypothesis SO : struct_ok E P V X.
  Hypothesis HP : forall s p', P None s -> pstat (s_prob s) p' -> P None (set_prob p' s).
  Definition ck {A} (c : M A) : Prop := keeps P X None c.

  Lemma ck_ret {A} (a : A) : ck (ret a).
  Proof. apply k_ret. Qed.
  Lemma ck_throw {A} x : nd_fail x -> ck (A := A) (throw x).
  Proof. intros H. eapply (k_throw E); [exact SO|exact H]. Qed.
  Lemma ck_bind {A B} (c : M A) (k : A -> M B) : ck c -> (forall a, ck (k a)) -> ck (bind c k).
  Proof. apply k_bind. Qed.
  Lemma ck_gets {A} (f : st -> A) : ck (gets f).
  Proof. intros s H. now apply wp_gets. Qed.
  Lemma ck_prob (f : st -> prob I) : (forall s, pstat (s_prob s) (f s)) -> ck (modify (fun s => set_prob (f s) s)).
  Proof. intros Hf s H. apply wp_modify. now apply HP. Qed.
  Lemma ck_ora (f : st -> prob I) : (forall s, pstat (s_prob s) (f s)) ->
    ck (modify (fun s => set_ora OIdle (set_prob (f s) s))).
  Proof. intros Hf s H. apply wp_modify. now apply (so_idle _ _ _ _ SO None), HP. Qed.
  Lemma ck_emit ev : ck (emit E ev).
  Proof. apply (k_emit E _ _ _ SO). Qed.
  Lemma ck_check : ck (check_termination E).
  Proof. apply (k_check E _ _ _ SO). Qed.
  Lemma ck_guard b : ck (guard b).
  Proof. apply (k_guard E _ _ _ SO). Qed.
  Lemma ck_unwrap {A} (o : option A) : ck (unwrap o).
  Proof. apply (k_unwrap E _ _ _ SO). Qed.
  Lemma ck_core : ck oracle_core.
  Proof. apply (k_core E _ _ _ SO). Qed.
  Lemma ck_solve a : ck (k_solve_assumps E a).
  Proof. apply (k_k_solve E _ _ _ SO). Qed.
  Lemma ck_solution : ck oracle_solution.
  Proof. intros s H. eapply wp_mono; [apply (so_solution _ _ _ _ SO None), H| |auto]. intros a s' [_ G]. exact G. Qed.
  Lemma ck_add_clauses cs : ck (add_clauses cs).
  Proof. apply (k_add_clauses E _ _ _ SO). Qed.
  Lemma ck_limited a : ck (k_solve_limited E a).
  Proof.
    unfold k_solve_limited. apply ck_bind; [apply ck_emit|]. intros _.
    apply ck_bind; [intros s; apply (so_solve _ _ _ _ SO None)|]. intros r. apply ck_bind; [apply ck_emit|]. intros _.
    apply ck_bind; [apply ck_check|]. intros _. apply ck_bind; [intros s; apply (so_ocall _ _ _ _ SO None)|].
    intros _. apply ck_ret.
  Qed.
  Lemma ck_loop {S A} n (body : S -> M (S + A)) x : (forall x, ck (body x)) -> ck (loop n body x).
  Proof. intros H. apply (k_loop E _ _ _ SO). exact H. Qed.
  Lemma ck_foldM {A B} (f : B -> A -> M B) l : (forall b a, ck (f b a)) -> forall b, ck (foldM f l b).
  Proof.
    intros H. induction l as [|a l IH]; intros b; cbn [foldM]; [apply ck_ret|].
    apply ck_bind; [apply H|]. intros b'. apply IH.
  Qed.

  Ltac ckt :=
    repeat first
      [ apply ck_ret | apply ck_emit | apply ck_check | apply ck_guard | apply ck_unwrap | apply ck_core
      | apply ck_solve | apply ck_solution | apply ck_add_clauses | apply ck_limited | apply ck_gets
      | apply ck_throw; exact Logic.I
      | apply ck_prob; intros; constructor; cbn; rewrite ?set_nth_length; lia
      | apply ck_ora; intros; constructor; cbn; rewrite ?set_nth_length; lia
      | apply ck_bind; [|intros ?]
      | apply ck_loop; intros ?
      | apply ck_foldM; intros ? ?
      | match goal with |- ck (let '(_, _) := ?x in _) => destruct x end
      | match goal with |- ck (if ?b then _ else _) => destruct b end
      | match goal with |- ck (match ?b with _ => _ end) => destruct b end ].

  Lemma ck_next {A} next (k : M A) s : vm_next (p_vm (s_prob s)) <= next -> ck k -> P None s ->
    wp (modify (fun s => set_prob (set_vm (vm_set_next (p_vm (s_prob s)) next) (s_prob s)) s) ;;; k) (fun _ => P None) X s.
  Proof.
    intros Hn Hk H. apply wp_bind, wp_modify, Hk. apply HP; [exact H|]. constructor; cbn; lia.
  Qed.
  Lemma ck_build d r k : ck (build_output T d r k).
  Proof.
    unfold build_output. intros s H. apply wp_bind, wp_gets.
    destruct (ti_define T d r k _) as [[[d' l] cl] n'] eqn:e. apply (tb_define_next _ _ TS) in e.
    apply ck_next; [exact e| |exact H]. ckt.
  Qed.
  Lemma reserve_next refs : forall d n d' n', reserve_outputs T refs d n = (d', n') -> n <= n'.
  Proof.
    unfold reserve_outputs. induction refs as [|lr refs IH]; intros d n d' n'; cbn [fold_left].
    - intros [= _ <-]. lia.
    - cbn [fst snd]. destruct (ti_reserve T d _ _ n) as [d1 n1] eqn:e. intros G. apply IH in G.
      apply (tb_reserve_ok _ _ TS) in e. destruct e as [e _]. lia.
  Qed.
  Lemma ck_exhaust_loop n : forall d r b l, ck (exhaust_loop T E n d r b l).
  Proof.
    induction n as [|n IH]; intros d r b l; cbn [exhaust_loop]; [ckt|].
    apply ck_bind; [apply ck_build|]. intros [d' l']. apply ck_bind; [apply ck_limited|].
    intros []; ckt. apply IH.
  Qed.
  Lemma ck_exhaust d r : ck (exhaust_core T E d r).
  Proof.
    unfold exhaust_core. apply ck_bind; [apply ck_gets|]. intros o. destruct (negb _).
    - apply ck_bind; [apply ck_build|]. intros x. ckt.
    - apply ck_bind; [apply ck_emit|]. intros _. apply ck_bind; [apply ck_guard|]. intros _.
      apply ck_bind; [apply ck_exhaust_loop|]. intros x. ckt.
  Qed.
  Lemma ck_reform cs x cd : ck (reform_core T E cs x cd).
  Proof.
    unfold reform_core. destruct x as [[rf d] a]. destruct (ti_merge T d _) as [d1 c].
    do 2 (apply ck_bind; [apply ck_guard|]; intros _). apply ck_bind; [apply ck_exhaust|].
    intros [[d2 l] k]. ckt.
  Qed.
  Lemma ck_relax cw x l : ck (relax_lit T cw x l).
  Proof.
    unfold relax_lit. destruct x as [[[rf d] a] cs]. apply ck_bind; [apply ck_unwrap|]. intros [i w].
    destruct (hm_get l (rf_refs rf)) as [[root oidx tw]|]; [|ckt].
    destruct (0 <? w); [ckt|]. destruct (_ <=? _); [ckt|]. apply ck_bind; [apply ck_build|]. intros [d' l']. ckt.
  Qed.
  Lemma ck_minimize c : ck (minimize_core E c).
  Proof. unfold minimize_core, minimize_step. ckt. Qed.
  Lemma ck_trim c : ck (trim_core E c).
  Proof. unfold trim_core, trim_body. ckt. Qed.
  Lemma ck_body x : ck (oll_body T E x).
  Proof.
    unfold oll_body. destruct x as [rf d a cores cs]. apply ck_bind; [apply ck_unwrap|]. intros [i a'].
    apply ck_bind; [apply ck_solve|]. intros [| |].
    - unfold oll_sat. destruct cores as [|cd cores].
      { apply ck_bind; [apply ck_solution|]. intros sol s H. apply wp_bind, wp_gets.
        destruct (reserve_outputs T _ d _) as [d' n'] eqn:e. apply reserve_next in e.
        apply ck_next; [exact e| |exact H]. ckt. }
      apply ck_bind; [apply ck_foldM; intros; apply ck_reform|]. intros [[? ?] ?]. ckt.
    - unfold oll_unsat. apply ck_bind; [apply ck_core|]. intros [|l core]; [ckt|].
      apply ck_bind; [apply ck_minimize|]. intros c1. apply ck_bind; [apply ck_trim|]. intros c2.
      apply ck_bind; [apply ck_unwrap|]. intros w. apply ck_bind; [apply ck_unwrap|]. intros off.
      apply ck_bind; [apply ck_emit|]. intros _.
      apply ck_bind; [apply ck_foldM; intros; apply ck_relax|]. intros [[[? ?] ?] ?]. ckt.
    - ckt.
  Qed.
  Lemma ck_oll rf d : ck (oll T E rf d).
  Proof.
    unfold oll. destruct (rf_inact rf); try (apply ck_bind; [apply ck_emit|]; intros _; apply ck_loop; intros; apply ck_body).
    ckt.
  Qed.
  Lemma ck_cbloop n : forall k acc, ck (core_boost_loop T E n k acc).
  Proof.
    induction n as [|n IH]; intros k acc; cbn [core_boost_loop]; [ckt|].
    apply ck_bind; [apply ck_gets|]. intros x. apply ck_bind; [apply ck_unwrap|]. intros ob.
    apply ck_bind.
    { destruct (obj_is_constant ob); [ckt|]. apply ck_bind; [apply ck_oll|]. intros [[rf d] [sol|]]; ckt. }
    intros [[rf d]|]; [|ckt]. apply ck_bind; [apply ck_prob; intros; constructor; cbn; rewrite ?set_nth_length; lia|]. intros _. apply IH.
  Qed.
  Lemma ck_merge rf d b : ck (merge_reform T rf d b).
  Proof.
    unfold merge_reform, merge_cons, merge_lit. destruct (rf_inact rf); ckt.
  Qed.
  Lemma ck_mloop opts : forall rs k, ck (merge_loop T E opts k rs).
  Proof.
    induction rs as [|[rf d] rs IH]; intros k; cbn [merge_loop]; [ckt|].
    apply ck_bind; [apply ck_gets|]. intros x. apply ck_bind; [apply ck_unwrap|]. intros ob.
    apply ck_bind.
    { destruct (obj_is_constant ob); [ckt|]. apply ck_bind; [apply ck_merge|]. intros e. ckt. }
    intros _. apply ck_bind; [apply ck_check|]. intros _. apply IH.
  Qed.
  Lemma ck_reset b : ck (reset_oracle E b).
  Proof. unfold reset_oracle. ckt. Qed.
  Lemma ck_boost opts : ck (alg_core_boost T E opts).
  Proof.
    unfold alg_core_boost. apply ck_bind; [apply ck_gets|]. intros n.
    apply ck_bind; [destruct (n =? 0); ckt|]. intros _. apply ck_bind.
    { unfold kernel_core_boost. apply ck_bind; [apply ck_emit|]. intros _. apply ck_bind; [apply ck_gets|].
      intros m. apply ck_bind; [apply ck_cbloop|]. intros x. ckt. }
    intros [rs|]; [|ckt]. apply ck_bind; [apply ck_check|]. intros _. apply ck_bind.
    { destruct (cb_reset opts); [|ckt]. apply ck_bind; [apply ck_reset|]. intros _. ckt. }
    intros _. apply ck_bind; [apply ck_emit|]. intros _. apply ck_bind; [apply ck_mloop|]. intros _. ckt.
  Qed.
End BoostKeeps.

(** Undisturbed core boosting only fails by a panic, an error or lack of fuel *)
Lemma calm_boost {I} {SP : enc_spec I} {T} (TS : tot_spec SP T) E : calm E -> forall opts,
  keeps (I := I) calmP calmX None (alg_core_boost T E opts).
Proof.
  intros HC opts. eapply (ck_boost TS); [apply (calm_struct SP E HC)|]. intros s p' H _. exact H.
Qed.

(** ** After core boosting *)
Section After.
  Context {I : enc_impl} {SP : enc_spec I} {T : tot_impl I} (TS : tot_spec SP T).
  Notation st := (st I).
  Variables (i : inst) (o : kopts).
  Hypothesis HI : inst_ok i.
  Hypothesis HD : forall r, In r (in_objs i) -> NoDup (map fst (fst r)).

  Lemma sim_raw (os : list objective) k ob : sim os (build_objs 0 (in_objs i)) -> nth_error os k = Some ob ->
    exists r, nth_error (in_objs i) k = Some r /\
      obj_set_lb 0 ob = obj_set_lb 0 (obj_new (fst r) (snd r) k).
  Proof.
    intros Hs Hk. destruct (sim_nth _ _ _ _ Hs Hk) as (ob' & H1 & H2). rewrite build_nth in H1.
    destruct (nth_error (in_objs i) k) as [r|]; [|discriminate]. injection H1 as <-. exists r. auto.
  Qed.
  Lemma lb0_icost ob ob' a : obj_set_lb 0 ob = obj_set_lb 0 ob' -> icost ob a = icost ob' a.
  Proof. intros H. unfold icost. rewrite <- (obj_iter_lb 0 ob), H, obj_iter_lb. reflexivity. Qed.
  Lemma lb0_const ob ob' : obj_set_lb 0 ob = obj_set_lb 0 ob' -> obj_is_constant ob = obj_is_constant ob'.
  Proof. destruct ob, ob'; cbn; congruence. Qed.
  Lemma lb0_ext ob ob' : obj_set_lb 0 ob = obj_set_lb 0 ob' -> externalize_one ob = externalize_one ob'.
  Proof. destruct ob, ob'; cbn; try discriminate; intros H; injection H; intros; subst; reflexivity. Qed.

  Variables (s0 s1 : st).
  Hypothesis HB : boosted (SP := SP) i o s0 s1.

  Lemma after_start : start SP i o s1.
  Proof. exact (rd_start _ _ _ (bo_ready _ _ _ _ HB)). Qed.

  Lemma sum_caps : forall (es : list (obj_enc I)) os, length es = length os ->
    (forall k ob e, nth_error os k = Some ob -> nth_error es k = Some e -> oe_cap SP e <= wtotal (obj_iter ob)) ->
    list_sum (map (oe_cap SP) es) <= list_sum (totals os).
  Proof.
    induction es as [|e es IH]; intros [|ob os] Hl H; cbn in Hl; try discriminate; [cbn; lia|].
    cbn [map totals list_sum fold_right]. change (fold_right Nat.add 0) with list_sum.
    pose proof (H 0 ob e eq_refl eq_refl). injection Hl as Hl.
    specialize (IH os Hl (fun k => H (S k))). unfold totals in IH |- *. cbn [map list_sum fold_right].
    change (fold_right Nat.add 0) with list_sum. lia.
  Qed.
  Lemma sim_totals os os' : sim os os' -> totals os = totals os'.
  Proof.
    unfold sim, totals. revert os'. induction os as [|a os IH]; intros [|b os'] H; cbn in H; try discriminate; [reflexivity|].
    injection H as H1 H2. cbn [map]. f_equal; [|now apply IH].
    now rewrite <- (obj_iter_lb 0 a), H1, obj_iter_lb.
  Qed.

  Lemma after_bound : bound SP i s1 <= iter_bound i.
  Proof.
    pose proof after_start as HS. unfold bound, iter_bound, n_orig.
    rewrite <- (totals_build _ 0). set (w := totals (build_objs 0 (in_objs i))).
    assert (list_sum (caps SP (s_prob s1)) <= list_sum w); [|lia].
    unfold w. rewrite <- (sim_totals _ _ (sa_objs _ _ _ _ HS)). apply sum_caps.
    - apply (wf_len _ _ _ (inv_wf _ _ _ _ _ (sa_inv _ _ _ _ HS))).
    - intros k ob e H1 H2. apply (bo_enc _ _ _ _ HB k ob e H1 H2).
  Qed.

  Lemma const_raw r k : obj_is_constant (obj_new (fst r) (snd r) k) = true -> fst r = [].
  Proof. unfold obj_new. destruct (fst r) as [|[l w] ls]; [auto|]. now destruct (existsb _ _). Qed.

  (** the bound kept for an objective, in the user's units, is its optimum *)
  Lemma after_lb k r ob : nth_error (in_objs i) k = Some r -> nth_error (p_objs (s_prob s1)) k = Some ob ->
    fst r <> [] -> exists z, externalize_one ob (obj_lb ob) = Some z /\ optimum i r z.
  Proof.
    intros Hr Ho Hne. destruct (sim_raw _ _ _ (sa_objs _ _ _ _ after_start) Ho) as (r' & Hr' & Hs).
    assert (r' = r) by congruence. subst r'.
    assert (Hok : obj_ok r).
    { pose proof (io_ok _ HI) as G. rewrite Forall_forall in G. apply G. eapply nth_error_In; eauto. }
    assert (Hfit : obj_fits r).
    { pose proof (io_fits _ HI) as G. rewrite Forall_forall in G. apply G. eapply nth_error_In; eauto. }
    destruct (bo_opt _ _ _ _ HB k ob Ho) as (a & Ha & Hc).
    { rewrite (lb0_const _ _ Hs). destruct (obj_is_constant _) eqn:e; [|reflexivity].
      apply const_raw in e. contradiction. }
    exists (obj_value r a). split.
    - rewrite <- Hc, (lb0_ext _ _ Hs), (lb0_icost _ _ a Hs). now apply externalize_value.
    - split; [exists a; auto|]. intros b Hb. pose proof (bo_lb _ _ _ _ HB k ob b Ho Hb) as H.
      apply (icost_le r k a b Hok). rewrite <- (lb0_icost _ _ a Hs), <- (lb0_icost _ _ b Hs). lia.
  Qed.

  Lemma after_length : length (p_objs (s_prob s1)) = length (in_objs i).
  Proof.
    pose proof (sa_objs _ _ _ _ after_start) as H. unfold sim in H. apply (f_equal (@length _)) in H.
    rewrite !map_length, build_length in H. exact H.
  Qed.

  (** BiOptSat needs that objectives that do not vary have internal cost 0 *)
  Lemma after_bi : length (in_objs i) = 2 -> no_fixed_cost i -> bi_start i s1.
  Proof.
    intros Hn Hf. pose proof after_start as HS. pose proof after_length as Hl. rewrite Hn in Hl.
    assert (Hle : length (p_encs (s_prob s1)) = 2).
    { rewrite (wf_len _ _ _ (inv_wf _ _ _ _ _ (sa_inv _ _ _ _ HS))). exact Hl. }
    destruct (p_objs (s_prob s1)) as [|o0 [|o1 [|]]] eqn:Eo; try discriminate.
    destruct (p_encs (s_prob s1)) as [|e0 [|e1 [|]]] eqn:Ee; try discriminate.
    assert (G : forall k ob e, nth_error [o0; o1] k = Some ob -> nth_error [e0; e1] k = Some e ->
      lbok (Feas i) k ob (oe_offset e) s1 /\ (forall a, Feas i a -> oe_offset e <= icost ob a)).
    { intros k ob e H1 H2. pose proof (bo_enc _ _ _ _ HB k ob e) as G. rewrite Eo, Ee in G.
      destruct (G H1 H2) as (_ & G2 & G3). split.
      - intros e' H'. rewrite Ee in H'. assert (e' = e) by congruence. subst e'. split; [lia|].
        intros -> a Ha. rewrite <- Eo in H1.
        destruct (sim_raw _ _ _ (sa_objs _ _ _ _ HS) H1) as (r & Hr & Hs).
        assert (Hok : obj_ok r).
        { pose proof (io_ok _ HI) as G5. rewrite Forall_forall in G5. apply G5. eapply nth_error_In; eauto. }
        assert (Hz : icost ob a = 0).
        { rewrite (lb0_icost _ _ a Hs). destruct (icost_value r k a Hok) as (Hv & Hp & _).
          rewrite (Hf r) in Hv; [nia| | |exact Ha].
          - eapply nth_error_In; eauto.
          - intros b c Hb Hc.
            destruct (icost_value r k b Hok) as (Hb1 & _). destruct (icost_value r k c Hok) as (Hc1 & _).
            rewrite <- (lb0_icost _ _ b Hs) in Hb1. rewrite <- (lb0_icost _ _ c Hs) in Hc1.
            rewrite (G3 eq_refl b Hb) in Hb1. rewrite (G3 eq_refl c Hc) in Hc1. lia. }
        lia.
      - intros a Ha. pose proof (bo_lb _ _ _ _ HB k ob a) as G4. rewrite Eo in G4. specialize (G4 H1 Ha). lia. }
    exists o0, o1, e0, e1. rewrite Ee. destruct (G 0 o0 e0 eq_refl eq_refl). destruct (G 1 o1 e1 eq_refl eq_refl).
    auto 10.
  Qed.

End After.

(** ** Solving from any state that stands for the instance *)
Section From.
  Context {I : enc_impl} (SP : enc_spec I).
  Notation st := (st I).
  Variables (i : inst) (o : kopts).
  Hypothesis HI : inst_ok i.
  Variables (al : alg) (s1 : st).
  Hypothesis HS : start SP i o s1.
  Hypothesis HBd : bound SP i s1 <= iter_bound i.
  Hypothesis Hbi : al = ABiOptSat -> bi_start i s1.
  Section Enum.
    Hypothesis HE : enum_ok i o.
    Lemma from_first E l : oracle_ok E -> lims_pos l ->
      match alg_solve al E l s1 with
      | (Done _, s') => exact_front i (s_front s') /\ sound_front i (s_front s')
      | (Exit x, s') => xok E (iter_bound i) x /\ sound_front i (s_front s')
      end.
    Proof.
      intros HO Hl.
      pose proof (wp_run _ _ _ _ (first_ok SP i o HI HE s1 HS al E l Hbi HO Hl)) as H.
      destruct (alg_solve al E l s1) as [[[]|x] s'].
      - exact (first_done SP i o HI s1 HS al s' H).
      - destruct H as (H1 & Ln & H2 & H3 & _). split.
        + unfold xok in *. intuition lia.
        + eapply (pts_sound SP i o HI s1 HS); eauto.
    Qed.
    Lemma from_term E : oracle_ok E -> calm E -> iter_bound i < ev_fuel E ->
      exists s', alg_solve al E lims_none s1 = (Done tt, s').
    Proof.
      intros HO Hc Hf. assert (Hl : lims_pos lims_none) by (repeat split; discriminate).
      pose proof (from_first E lims_none HO Hl) as G.
      pose proof (wp_run _ _ _ _ (calm_solve SP E Hc al s1)) as C.
      destruct (alg_solve al E lims_none s1) as [[[]|x] s']; [eauto|]. exfalso.
      destruct G as [G _]. unfold calmX in C. destruct G as [G|[-> G]]; [|lia].
      destruct x as [t|[]| |]; cbn in *; tauto.
    Qed.
    Lemma from_enum_all E l s' : oracle_ok E -> lims_pos l -> alg_solve al E l s1 = (Done tt, s') ->
      o_enum o = Solutions None -> forall nd, In nd (s_front s') ->
      NoDup (nd_sols nd) /\ forall sol, In sol (nd_sols nd) <->
        valid_solution (in_cls i) (in_objs i) (n_orig i) (nd_costs nd) sol.
    Proof.
      intros HO Hl H Hen nd Hin.
      pose proof (wp_run _ _ _ _ (first_ok SP i o HI HE s1 HS al E l Hbi HO Hl)) as G. rewrite H in G.
      destruct G as (Ln & H1 & _). destruct (Forall2_In_l _ _ _ nd H1 Hin) as (c & HP & (_ & [HC|(k & Hk & _)] & _)).
      - split; [apply HP|]. eapply (enum_all SP i o HI HE s1 HS); eauto.
      - rewrite Hen in Hk. discriminate.
    Qed.
  End Enum.
  (** histories *)
  Lemma from_history h : al <> ABiOptSat -> o_enum o = NoEnum -> run_ok h ->
    sound_front i (s_front (run al h s1)).
  Proof.
    intros Hal Hn Hok. pose proof (enum_none i o Hn) as HE.
    destruct (run_noenum SP i o HI HE s1 HS al h Hn Hal [] s1 Hok) as (L & G).
    { eapply G_weak. apply (G_start SP i o s1 HS al). }
    eapply (pts_sound SP i o HI s1 HS); [apply G|apply G].
  Qed.
  Lemma from_exits h E l : o_enum o = NoEnum -> run_ok h -> oracle_ok E -> lims_pos l ->
    proper_exit i E (fst (alg_solve al E l (run al h s1))).
  Proof.
    intros Hn Hok HO Hl. pose proof (enum_none i o Hn) as HE.
    assert (X : forall x, xok E (bound SP i s1) x -> proper_exit i E (Exit x)).
    { intros x Hx. apply xok_proper. unfold xok in *. intuition lia. }
    assert (Dec : al = ABiOptSat \/ al <> ABiOptSat) by (destruct al; (now left) || (right; discriminate)).
    destruct Dec as [Ha | Hal].
    - specialize (Hbi Ha). rewrite Ha in *.
      destruct (GB_run SP i o HI s1 h HS Hbi Hn s1 Hok (GB_start SP i o s1 HS)) as [G1 G2 G3 _ (L & D & _ & _ & G5)].
      pose proof (wp_run _ _ _ _ (bi_call SP i o HI HE s1 HS D E l _ Hbi G1 G2 G3 G5 HO Hl)) as C.
      cbn [alg_solve]. destruct (bi_solve E l _) as [[[]|y] s']; cbn [fst]; [exact Logic.I|]. apply X, C.
    - destruct (run_noenum SP i o HI HE s1 HS al h Hn Hal [] s1 Hok) as (L & G).
      { eapply G_weak. apply (G_start SP i o s1 HS al). }
      pose proof (wp_run _ _ _ _ (call_ok SP i o HI HE s1 HS al E l false L _ G HO Hl Hal)) as C.
      destruct (alg_solve al E l _) as [[[]|y] s']; cbn [fst]; [exact Logic.I|]. apply X, C.
  Qed.
End From.
