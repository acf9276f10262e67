(** * Invariants of all programs that depend on what is logged

    As Struct.v, for properties [P] that speak of the events handed to the logger: a candidate is only
    logged with costs in [C], which the costs of every solution of the oracle are. *)
From Coq Require Import List Bool Arith Lia ZArith.
From Verif Require Import Base BaseLemmas MTypes MKernel MPMinimal MLowerBounding MBiOptSat MRelease ApiSpec Wp Sem Struct.
Import ListNotations.

(** Events other than candidates, non-dominated points, solutions and oracle calls *)
Definition plain_ev (ev : event) : Prop :=
  match ev with EvCandidate _ _ | EvNonDom _ | EvSolution | EvOracleCall _ => False | _ => True end.

Section LStruct.
  Context {I : enc_impl}.
  Notation M := (M I).
  Notation st := (st I).
  Notation prob := (prob I).
  Variable E : environ.
  Variable P : option (list nat * nd_point assignment) -> st -> Prop.
  Variable V : assignment -> Prop.
  Variable C : list nat -> Prop.
  Variable X : exit -> st -> Prop.

  (** What has to be shown for the primitives *)
  Record lstruct_ok : Prop := mkLstruct {
    (** encodings only take fresh variables (from [enc_spec]) *)
    so_next : forall (e : obj_enc I) lo hi n e' cl n',
      oe_encode_ub e lo hi n = (e', cl, n') -> n <= n';
    so_emit : forall pi s ev, plain_ev ev -> P pi s -> wp (emit E ev) (fun _ => P pi) X s;
    so_check : forall pi s, P pi s -> wp (check_termination E) (fun _ => P pi) X s;
    so_cand : forall pi s cs ph, C cs -> P pi s -> wp (log_candidate E cs ph) (fun _ => P pi) X s;
    so_ocall : forall pi s r, P pi s -> wp (log_oracle_call E r) (fun _ => P pi) X s;
    so_prob : forall pi s p', P pi s -> pgrow (s_prob s) p' -> P pi (set_prob p' s);
    so_idle : forall pi s, P pi s -> P pi (set_ora OIdle s);
    so_fence : forall pi s f, P pi s -> P pi (set_fence f s);
    so_solve : forall pi s b a, P pi s -> wp (oracle_solve E b a) (fun _ => P pi) X s;
    so_solution : forall pi s, P pi s ->
      wp oracle_solution (fun sol s' => V sol /\ P pi s') X s;
    so_costs : forall pi s sol n cs, P pi s -> V sol ->
      n = n_objs (s_stats s) \/ n = length (p_objs (s_prob s)) ->
      get_costs n sol s = (Done cs, s) -> C cs;
    so_exit : forall pi s x, P pi s -> nd_fail x -> X x s;
    so_begin : forall s cs ext, P None s -> length cs = n_objs (s_stats s) ->
      externalize_all (p_objs (s_prob s)) cs = Some ext -> P (Some (cs, nd_new ext)) s;
    so_sol : forall cs sol nd s, V sol -> P (Some (cs, nd)) s ->
      get_costs (n_objs (s_stats s)) sol s = (Done cs, s) ->
      let nd' := nd_add_sol nd (truncate sol (vm_max_orig (p_vm (s_prob s)))) in
      wp (catch (log_solution E))
        (fun t s' => match t with
           | inl _ =>
               if enum_done (o_enum (s_opts s')) (nd_n_sols nd')
               then wp (yield_finish E nd') (fun _ => P None) X s'
               else P (Some (cs, nd')) s'
           | inr x => wp (nt <- catch (log_non_dominated E nd') ;;
                          front_push nd' ;;; rethrow nt ;;; throw x) (fun _ : unit => P None) X s'
           end) X s;
    so_finish : forall cs nd s, nd_sols nd <> [] -> P (Some (cs, nd)) s ->
      wp (yield_finish E nd) (fun _ => P None) X s }.

  Hypothesis SO : lstruct_ok.
  Let H_next := so_next SO.
  Let H_emit := so_emit SO.
  Let H_check := so_check SO.
  Let H_cand := so_cand SO.
  Let H_ocall := so_ocall SO.
  Let H_prob := so_prob SO.
  Let H_idle := so_idle SO.
  Let H_fence := so_fence SO.
  Let H_solve := so_solve SO.
  Let H_solution := so_solution SO.
  Let H_costs := so_costs SO.
  Let H_exit := so_exit SO.
  Let H_begin := so_begin SO.
  Let H_sol := so_sol SO.
  Let H_finish := so_finish SO.

  Definition keeps {A} pi (c : M A) : Prop := forall s, P pi s -> wp c (fun _ => P pi) X s.

  (** ** Combinators *)
  Lemma k_ret {A} pi (a : A) : keeps pi (ret a).
  Proof. intros s H. now apply wp_ret. Qed.
  Lemma k_bind {A B} pi (c : M A) (k : A -> M B) : keeps pi c -> (forall a, keeps pi (k a)) ->
    keeps pi (bind c k).
  Proof. intros H1 H2 s H. apply wp_bind. eapply wp_mono; [apply H1, H| |auto]. intros a s' H'. now apply H2. Qed.
  Lemma k_gets {A B} pi (f : st -> A) (k : A -> M B) : (forall a, keeps pi (k a)) -> keeps pi (bind (gets f) k).
  Proof. intros H s Hs. apply wp_bind, wp_gets, H, Hs. Qed.
  Lemma k_throw {A} pi x : nd_fail x -> keeps (A := A) pi (throw x).
  Proof. intros Hx s H. apply wp_throw. eapply H_exit; eauto. Qed.
  Lemma k_guard pi b : keeps pi (guard b).
  Proof. unfold guard. destruct b; [apply k_ret|apply k_throw; exact Logic.I]. Qed.
  Lemma k_unwrap {A} pi (o : option A) : keeps pi (unwrap o).
  Proof. destruct o; [apply k_ret|apply k_throw; exact Logic.I]. Qed.
  Lemma k_or_err {A} pi e (o : option A) : nd_fail (EErr e) -> keeps pi (or_err e o).
  Proof. intros H. destruct o; [apply k_ret|now apply k_throw]. Qed.
  Lemma k_loop {S A} pi n (body : S -> M (S + A)) : (forall x, keeps pi (body x)) ->
    forall x, keeps pi (loop n body x).
  Proof.
    intros H. induction n as [|n IH]; intros x; cbn [loop]; [apply k_throw; exact Logic.I|].
    apply k_bind; [apply H|]. intros [x'|a]; [apply IH|apply k_ret].
  Qed.
  Lemma k_forM {A} pi (f : A -> M unit) l : (forall a, keeps pi (f a)) -> keeps pi (forM f l).
  Proof. intros H. induction l; cbn [forM]; [apply k_ret|apply k_bind; auto]. Qed.
  Lemma k_mapM {A B} pi (f : A -> M B) l : (forall a, keeps pi (f a)) -> keeps pi (mapM f l).
  Proof.
    intros H. induction l; cbn [mapM]; [apply k_ret|apply k_bind; auto]. intros b.
    apply k_bind; [exact IHl|]. intros bs. apply k_ret.
  Qed.

  (** ** Kernel *)
  Lemma k_emit pi ev : plain_ev ev -> keeps pi (emit E ev).
  Proof. intros H s. now apply H_emit. Qed.
  Lemma k_start pi r : keeps pi (log_start E r).
  Proof. apply k_emit. exact Logic.I. Qed.
  Lemma k_end pi : keeps pi (log_end E).
  Proof. apply k_emit. exact Logic.I. Qed.
  Lemma k_check pi : keeps pi (check_termination E).
  Proof. intros s. apply H_check. Qed.
  Lemma k_cand pi cs ph : C cs -> keeps pi (log_candidate E cs ph).
  Proof. intros H s. now apply H_cand. Qed.
  Lemma k_k_solve pi a : keeps pi (k_solve_assumps E a).
  Proof.
    unfold k_solve_assumps. apply k_bind; [apply k_start|]. intros _.
    apply k_bind; [intros s; apply H_solve|]. intros r. apply k_bind; [apply k_end|]. intros _.
    apply k_bind; [apply k_check|]. intros _. apply k_bind; [intros s; apply H_ocall|]. intros _. apply k_ret.
  Qed.
  Lemma k_core pi : keeps pi oracle_core.
  Proof. apply k_gets. intros [| |core]; try (apply k_throw; exact Logic.I). apply k_ret. Qed.
  Lemma k_add_clause pi c : keeps pi (add_clause c).
  Proof.
    intros s H. apply wp_modify. apply H_idle, H_prob; [exact H|].
    constructor; try reflexivity. intros x Hx. now right.
  Qed.
  Lemma k_add_clauses pi cs : keeps pi (add_clauses cs).
  Proof. apply k_forM, k_add_clause. Qed.
  Lemma k_get_cost pi i sol : keeps pi (get_cost i sol).
  Proof.
    apply k_gets. intros n. apply k_bind; [apply k_guard|]. intros _. apply k_gets. intros o.
    apply k_bind; [apply k_unwrap|]. intros o'. apply k_ret.
  Qed.
  Lemma k_get_costs pi n sol : keeps pi (get_costs n sol).
  Proof. apply k_mapM. intros i. apply k_get_cost. Qed.
  Lemma k_get_enc pi i : keeps pi (get_enc i).
  Proof. apply k_gets. intros e. apply k_unwrap. Qed.
  Lemma k_extend pi i lo hi : keeps pi (extend_encoding i lo hi).
  Proof.
    intros s H. unfold extend_encoding. apply wp_bind. unfold get_enc. apply wp_bind, wp_gets.
    destruct (nth_error (p_encs (s_prob s)) i) as [e|]; [|apply wp_throw; eapply H_exit; [exact H|exact Logic.I]].
    apply wp_ret, wp_bind, wp_gets.
    destruct (oe_encode_ub e lo hi (vm_next (p_vm (s_prob s)))) as [[e' cl] n'] eqn:He.
    apply wp_bind, wp_modify, k_add_clauses. apply H_prob; [exact H|].
    constructor; try reflexivity; [apply incl_refl| |apply set_nth_length]. cbn. eapply H_next; eauto.
  Qed.
  Lemma k_new_var pi : keeps pi new_var.
  Proof.
    intros s H. unfold new_var. apply wp_bind, wp_gets, wp_bind, wp_modify, wp_ret.
    apply H_prob; [exact H|]. constructor; try reflexivity; [apply incl_refl|]. cbn. lia.
  Qed.
  Lemma k_unphase pi : keeps pi unphase_solution.
  Proof.
    apply k_gets. intros [|]; [|apply k_ret]. apply k_gets. intros v.
    apply k_bind; [apply k_unwrap|]. intros _. apply k_ret.
  Qed.
  Lemma k_fence pi (f : st -> fence) : keeps pi (modify (fun s => set_fence (f s) s)).
  Proof. intros s H. apply wp_modify. now apply H_fence. Qed.

  Lemma get_costs_pure l sol (s : st) :
    (exists cs, mapM (fun i => get_cost i sol) l s = (Done cs, s)) \/
    mapM (fun i => get_cost i sol) l s = (Exit EPanic, s).
  Proof.
    assert (H1 : forall i, (exists c, get_cost i sol s = (Done c, s)) \/ get_cost i sol s = (Exit EPanic, s)).
    { intros i. unfold get_cost, bind, gets, guard, unwrap.
      destruct (i <? n_objs (s_stats s)); cbn [ret throw]; [|now right].
      destruct (nth_error (p_objs (s_prob s)) i) as [o|]; [left; eexists; reflexivity|now right]. }
    induction l as [|i l IH]; cbn [mapM]; [left; eexists; reflexivity|]. unfold bind.
    destruct (H1 i) as [[c ->]| ->]; [|now right].
    destruct IH as [[cs ->]| ->]; [left; eexists; reflexivity|now right].
  Qed.

  Lemma k_costs pi n sol s : V sol -> P pi s -> n = n_objs (s_stats s) \/ n = length (p_objs (s_prob s)) ->
    wp (get_costs n sol) (fun cs s' => C cs /\ P pi s') X s.
  Proof.
    intros HV HP Hn. unfold get_costs at 1. destruct (get_costs_pure (seq 0 n) sol s) as [[cs Hc]|Hc];
      unfold wp; rewrite Hc; [|eapply H_exit; [exact HP|exact Logic.I]]. split; [eapply H_costs; eassumption|exact HP].
  Qed.

  (** ** Yielding *)
  Lemma k_yield_body cs a sol nd s : V sol -> P (Some (cs, nd)) s ->
    wp (yield_body E cs a (sol, nd))
      (fun r s' => match r with
         | inl (sol', nd') => V sol' /\ P (Some (cs, nd')) s'
         | inr _ => P None s' end) X s.
  Proof.
    intros HV HP. unfold yield_body. apply wp_bind, wp_gets, wp_bind. unfold get_costs at 1.
    destruct (get_costs_pure (seq 0 (n_objs (s_stats s))) sol s) as [[cs' Hc]|Hc];
      unfold wp at 1; rewrite Hc; [|eapply H_exit; [exact HP|exact Logic.I]].
    apply wp_bind. unfold guard. destruct (list_eq_dec Nat.eq_dec cs' cs) as [->|];
      [|apply wp_throw; eapply H_exit; [exact HP|exact Logic.I]].
    apply wp_ret, wp_bind, wp_gets.
    set (nd' := nd_add_sol nd (truncate sol (vm_max_orig (p_vm (s_prob s))))).
    assert (Hne : nd_sols nd' <> []).
    { cbn. intros H. apply app_eq_nil in H. destruct H; discriminate. }
    apply wp_bind. eapply wp_mono; [apply (H_sol _ _ _ _ HV HP Hc)| |auto].
    intros [u|x] s1 H1.
    2:{ fold nd' in H1. revert H1. generalize nd'. clear. intros nd' H.
        unfold wp in *. unfold bind in *.
        destruct (catch (log_non_dominated E nd') s1) as [[nt|x'] s2]; [|exact H].
        destruct (front_push nd' s2) as [[?|x'] s3]; [|exact H].
        destruct nt as [?|x']; cbn in *; exact H. }
    fold nd' in H1. apply wp_bind, wp_gets.
    destruct (enum_done _ _).
    - apply wp_bind. eapply wp_mono; [exact H1| |auto].
      intros [] s2 H2. now apply wp_ret.
    - apply wp_bind. eapply wp_mono; [apply k_check, H1| |auto]. intros [] s2 H2.
      apply wp_bind, wp_gets, wp_bind. eapply wp_mono; [apply k_unwrap, H2| |auto]. intros c s3 H3.
      apply wp_bind. eapply wp_mono; [apply k_add_clause, H3| |auto]. intros [] s4 H4.
      apply wp_bind. eapply wp_mono; [apply k_k_solve, H4| |auto]. intros r s5 H5.
      assert (Hgo : wp (check_termination E ;;; sol' <- oracle_solution ;; ret (inl (sol', nd')))
        (fun (r : (assignment * nd_point assignment) + unit) s' => match r with
         | inl (sol', nd') => V sol' /\ P (Some (cs, nd')) s'
         | inr _ => P None s' end) X s5).
      { apply wp_bind. eapply wp_mono; [apply k_check, H5| |auto]. intros [] s6 H6.
        apply wp_bind. eapply wp_mono; [apply H_solution, H6| |auto]. intros sol' s7 [V7 H7].
        apply wp_ret. auto. }
      destruct r; [exact Hgo| |exact Hgo].
      apply wp_bind. eapply wp_mono; [eapply H_finish; [exact Hne|exact H5]| |auto].
      intros [] s6 H6. now apply wp_ret.
  Qed.
  Lemma k_yield cs a sol s : V sol -> P None s -> wp (yield_solutions E cs a sol) (fun _ => P None) X s.
  Proof.
    intros HV HP. unfold yield_solutions. apply wp_bind, wp_gets, wp_bind.
    unfold guard at 1. destruct (length cs =? n_objs (s_stats s)) eqn:Hl;
      [|apply wp_throw; eapply H_exit; [exact HP|exact Logic.I]].
    apply wp_ret, wp_bind. eapply wp_mono; [apply k_start, HP| |auto]. intros [] s1 H1.
    apply wp_bind. eapply wp_mono; [apply k_unphase, H1| |auto]. intros [] s2 H2.
    apply wp_bind. unfold externalize_internal_costs. apply wp_bind, wp_gets, wp_bind.
    unfold guard. destruct (length cs =? n_objs (s_stats s2)) eqn:Hl2;
      [|apply wp_throw; eapply H_exit; [exact H2|exact Logic.I]].
    apply wp_ret, wp_bind, wp_gets. apply Nat.eqb_eq in Hl2.
    destruct (externalize_all (p_objs (s_prob s2)) cs) as [ext|] eqn:He;
      [|apply wp_throw; eapply H_exit; [exact H2|exact Logic.I]].
    apply wp_ret. pose proof (H_begin _ _ _ H2 Hl2 He) as H3.
    revert HV H3. generalize (nd_new ext : nd_point assignment) as nd. clear Hl2 He H2 HP H1 Hl.
    revert sol s2. induction (ev_fuel E) as [|n IH]; intros sol s2 nd HV H3; cbn [loop].
    - apply wp_throw. eapply H_exit; [exact H3|exact Logic.I].
    - apply wp_bind. eapply wp_mono; [apply k_yield_body; eassumption| |auto].
      intros [[sol' nd']|[]] s' H; [|now apply wp_ret]. apply IH; apply H.
  Qed.

  (** ** Programs that return a solution *)
  Lemma k_solution_costs pi s : P pi s ->
    wp get_solution_and_internal_costs (fun r s' => (V (snd r) /\ C (fst r)) /\ P pi s') X s.
  Proof.
    intros HP. unfold get_solution_and_internal_costs. apply wp_bind.
    eapply wp_mono; [apply H_solution, HP| |auto]. intros sol s1 [V1 H1].
    apply wp_bind, wp_gets, wp_bind. eapply wp_mono; [apply k_costs; [exact V1|exact H1|now right]| |auto]. intros cs s2 [C2 H2].
    apply wp_bind, wp_gets, wp_bind. eapply wp_mono; [apply k_guard, H2| |auto]. intros [] s3 H3.
    apply wp_ret. auto.
  Qed.

  Definition optV (o : option assignment) : Prop := match o with Some a => V a | None => True end.
  Lemma k_linsu_body dbg idx base lb c sol s : optV sol -> P None s ->
    wp (linsu_body_r dbg E idx base lb (c, sol))
      (fun r s' => P None s' /\ match r with
         | inl (_, so) => optV so | inr (inl (_, a)) => V a | inr (inr (_, so)) => optV so end) X s.
  Proof.
    intros HV HP. unfold linsu_body_r. destruct (c <=? lb); [now apply wp_ret|].
    apply wp_bind. eapply wp_mono; [apply k_extend, HP| |auto]. intros [] s1 H1.
    apply wp_bind. eapply wp_mono; [apply k_get_enc, H1| |auto]. intros e s2 H2.
    apply wp_bind. eapply wp_mono; [apply k_unwrap, H2| |auto]. intros a s3 H3.
    apply wp_bind. eapply wp_mono; [apply k_k_solve, H3| |auto]. intros r s4 H4. destruct r.
    - apply wp_bind. eapply wp_mono; [apply H_solution, H4| |auto]. intros sol' s5 [V5 H5].
      apply wp_bind. eapply wp_mono; [apply k_get_cost, H5| |auto]. intros nc s6 H6.
      apply wp_bind. apply wp_mono with (Q := fun _ => P None) (X := X); [| |auto].
      { destruct dbg; [apply k_guard, H6|now apply wp_ret]. }
      intros [] s7 H7.
      apply wp_bind, wp_gets, wp_bind. eapply wp_mono; [apply k_costs; [exact V5|exact H7|now left]| |auto]. intros cs s8 [C8 H8].
      apply wp_bind. eapply wp_mono; [apply k_cand; [exact C8|exact H8]| |auto]. intros [] s9 H9.
      destruct (nc <=? lb); [|apply wp_ret; auto].
      apply wp_bind. eapply wp_mono; [apply k_end, H9| |auto]. intros [] s10 H10. apply wp_ret; auto.
    - apply wp_ret; auto.
    - apply wp_throw. eapply H_exit; [exact H4|exact Logic.I].
  Qed.
  Definition ubV (ub : option (nat * option assignment)) : Prop :=
    match ub with Some (_, so) => optV so | None => True end.
  Lemma k_linsu dbg idx base ub lb s : ubV ub -> P None s ->
    wp (linsu_r dbg E idx base ub lb)
      (fun r s' => P None s' /\ match r with Some (_, a) => V a | None => True end) X s.
  Proof.
    intros HV HP. unfold linsu_r. apply wp_bind. eapply wp_mono; [apply k_start, HP| |auto]. intros [] s1 H1.
    set (lb' := match lb with Some b => b | None => 0 end).
    apply wp_bind.
    assert (Hst : wp (linsu_start E idx base ub) (fun b s' => P None s' /\ ubV b) X s1).
    { unfold linsu_start. destruct ub as [b|]; [apply wp_ret; auto|].
      apply wp_bind. eapply wp_mono; [apply k_k_solve, H1| |auto]. intros r s2 H2.
      assert (Hgo : wp (sol <- oracle_solution ;; c <- get_cost idx sol ;; ret (Some (c, Some sol)))
                (fun b s' => P None s' /\ ubV b) X s2).
      { apply wp_bind. eapply wp_mono; [apply H_solution, H2| |auto]. intros sol s3 [V3 H3].
        apply wp_bind. eapply wp_mono; [apply k_get_cost, H3| |auto]. intros c s4 H4. apply wp_ret; auto. }
      destruct r; [exact Hgo| |exact Hgo]. apply wp_ret. split; [exact H2|exact Logic.I]. }
    eapply wp_mono; [exact Hst| |auto]. intros [[c sol]|] s2 [H2 V2].
    2:{ apply wp_bind. eapply wp_mono; [apply k_end, H2| |auto]. intros [] s3 H3. apply wp_ret; auto. }
    cbn [ubV] in V2. apply wp_bind.
    assert (Hloop : wp (loop (ev_fuel E) (linsu_body_r dbg E idx base lb') (c, sol))
      (fun r s' => P None s' /\ match r with inl (_, a) => V a | inr (_, so) => optV so end) X s2).
    { revert c sol s2 H2 V2. induction (ev_fuel E) as [|n IH]; intros c sol s2 H2 V2; cbn [loop].
      - apply wp_throw. eapply H_exit; [exact H2|exact Logic.I].
      - apply wp_bind. eapply wp_mono; [apply k_linsu_body; eassumption| |auto].
        intros [[c' so]|r] s3 [H3 V3]; [apply IH; auto|]. apply wp_ret. split; [exact H3|].
        destruct r as [[? ?]|[? ?]]; exact V3. }
    eapply wp_mono; [exact Hloop| |auto]. intros [[c' a]|[c' so]] s3 [H3 V3].
    - apply wp_ret. auto.
    - apply wp_bind.
      assert (Hf : wp (linsu_final E idx base c' so) (fun a s' => V a /\ P None s') X s3).
      { unfold linsu_final. destruct so as [a|]; [apply wp_ret; auto|].
        apply wp_bind. eapply wp_mono; [apply k_extend, H3| |auto]. intros [] s4 H4.
        apply wp_bind. eapply wp_mono; [apply k_get_enc, H4| |auto]. intros e s5 H5.
        apply wp_bind. eapply wp_mono; [apply k_unwrap, H5| |auto]. intros a s6 H6.
        apply wp_bind. eapply wp_mono; [apply k_k_solve, H6| |auto]. intros r s7 H7.
        apply wp_bind. eapply wp_mono; [apply k_guard, H7| |auto]. intros [] s8 H8.
        apply H_solution, H8. }
      eapply wp_mono; [exact Hf| |auto]. intros a s4 [V4 H4].
      apply wp_bind. eapply wp_mono; [apply k_end, H4| |auto]. intros [] s5 H5. apply wp_ret. auto.
  Qed.
  Lemma k_linsu_yield dbg idx base ub lb s : ubV ub -> P None s ->
    wp (linsu_yield_r dbg E idx base ub lb)
      (fun r s' => P None s' /\ match r with Some (_, a) => V a | None => True end) X s.
  Proof.
    intros HV HP. unfold linsu_yield_r. apply wp_bind. eapply wp_mono; [apply k_linsu; eassumption| |auto].
    intros [[c sol]|] s1 [H1 V1]; [|apply wp_ret; auto].
    apply wp_bind, wp_gets, wp_bind. eapply wp_mono; [apply k_get_costs, H1| |auto]. intros cs s2 H2.
    apply wp_bind. eapply wp_mono; [apply k_guard, H2| |auto]. intros [] s3 H3.
    apply wp_bind. eapply wp_mono; [apply k_extend, H3| |auto]. intros [] s4 H4.
    apply wp_bind. eapply wp_mono; [apply k_get_enc, H4| |auto]. intros e s5 H5.
    apply wp_bind. eapply wp_mono; [apply k_unwrap, H5| |auto]. intros a s6 H6.
    apply wp_bind. eapply wp_mono; [apply k_yield; eassumption| |auto]. intros [] s7 H7.
    apply wp_ret. auto.
  Qed.

  (** ** P-minimal *)
  Lemma k_enforce pi cs : keeps pi (enforce_dominating cs).
  Proof.
    apply k_gets. intros n. apply k_bind; [apply k_guard|]. intros _.
    apply k_bind; [apply k_forM; intros x; apply k_extend|]. intros _.
    apply k_bind; [|intros ls; apply k_ret]. apply k_mapM. intros x.
    apply k_bind; [apply k_get_enc|]. intros e. apply k_unwrap.
  Qed.
  Lemma k_block_lits pi x : keeps pi (block_lits x).
  Proof.
    destruct x as [idx c]. unfold block_lits. apply k_bind; [apply k_get_enc|]. intros e.
    destruct (c <=? oe_offset e); [apply k_ret|].
    assert (G : keeps pi (extend_encoding idx (c - 1) c ;;;
        e' <- get_enc idx ;;
        a <- or_err ErrEnc (oe_enforce_ub e' (c - 1)) ;;
        match a with
        | [l] => ret [l]
        | _ =>
            guard (match a with [] => false | _ => true end) ;;;
            v <- new_var ;;
            add_clauses (lit_impl_cube (pos v) a) ;;;
            ret [pos v]
        end)).
    { apply k_bind; [apply k_extend|]. intros _. apply k_bind; [apply k_get_enc|]. intros e'.
      apply k_bind; [apply k_or_err; exact Logic.I|]. intros a.
      assert (G : keeps pi (guard (match a with [] => false | _ => true end) ;;;
            v <- new_var ;;
            add_clauses (lit_impl_cube (pos v) a) ;;;
            ret [pos v])).
      { apply k_bind; [apply k_guard|]. intros _. apply k_bind; [apply k_new_var|]. intros v.
        apply k_bind; [apply k_add_clauses|]. intros _. apply k_ret. }
      destruct a as [|l [|l' a]]; [exact G|apply k_ret|exact G]. }
    destruct e; [exact G|exact G|apply k_ret].
  Qed.
  Lemma k_dominated pi cs : keeps pi (dominated_block_clause cs).
  Proof.
    apply k_gets. intros n. apply k_bind; [apply k_guard|]. intros _.
    apply k_bind; [apply k_mapM; intros x; apply k_block_lits|]. intros ls. apply k_ret.
  Qed.
  Lemma k_tmp pi cs : keeps pi (tmp_block_dominated cs).
  Proof.
    apply k_gets. intros n. apply k_bind; [apply k_guard|]. intros _.
    apply k_bind; [apply k_dominated|]. intros c. apply k_bind; [apply k_new_var|]. intros v.
    apply k_bind; [apply k_add_clause|]. intros _. apply k_ret.
  Qed.
  Lemma k_opt_clause pi sw : keeps pi (match sw with Some b => add_clause [b] | None => ret tt end).
  Proof. destruct sw; [apply k_add_clause|apply k_ret]. Qed.
  Lemma k_pmin_body base x s : V (snd (fst x)) -> P None s ->
    wp (pmin_body E base x)
      (fun r s' => P None s' /\ match r with inl y => V (snd (fst y)) | inr y => V (snd (fst y)) end) X s.
  Proof.
    destruct x as [[cs sol] sw]. cbn [fst snd]. intros HV HP. unfold pmin_body.
    apply wp_bind, wp_gets, wp_bind.
    assert (Hb : keeps None (match o_enum (s_opts s) with
           | NoEnum =>
               c <- dominated_block_clause cs ;;
               add_clause c ;;;
               ret sw
           | _ =>
               match sw with Some b => add_clause [b] | None => ret tt end ;;;
               b <- tmp_block_dominated cs ;;
               ret (Some b)
           end)).
    { assert (G : keeps None (match sw with Some b => add_clause [b] | None => ret tt end ;;;
               b <- tmp_block_dominated cs ;;
               ret (Some b))).
      { apply k_bind; [apply k_opt_clause|]. intros _. apply k_bind; [apply k_tmp|]. intros b. apply k_ret. }
      destruct (o_enum (s_opts s)); [|exact G|exact G].
      apply k_bind; [apply k_dominated|]. intros c. apply k_bind; [apply k_add_clause|]. intros _. apply k_ret. }
    eapply wp_mono; [apply Hb, HP| |auto]. intros sw' s1 H1.
    apply wp_bind. eapply wp_mono; [apply k_enforce, H1| |auto]. intros a s2 H2.
    apply wp_bind. eapply wp_mono; [apply k_k_solve, H2| |auto]. intros r s3 H3.
    assert (Hgo : wp (check_termination E ;;;
        cs_sol <- get_solution_and_internal_costs ;;
        let '(cs', sol') := cs_sol in
        log_candidate E cs' PhMinimization ;;;
        check_termination E ;;;
        phase_solution sol' ;;;
        ret (inl (cs', sol', sw')))
       (fun (r : pmin_state + pmin_state) s' => P None s' /\ match r with inl y => V (snd (fst y)) | inr y => V (snd (fst y)) end) X s3).
    { apply wp_bind. eapply wp_mono; [apply k_check, H3| |auto]. intros [] s4 H4.
      apply wp_bind. eapply wp_mono; [apply k_solution_costs, H4| |auto]. intros [cs' sol'] s5 [[V5 C5] H5]. cbn [fst snd] in V5, C5.
      apply wp_bind. eapply wp_mono; [apply k_cand; [exact C5|exact H5]| |auto]. intros [] s6 H6.
      apply wp_bind. eapply wp_mono; [apply k_check, H6| |auto]. intros [] s7 H7.
      apply wp_bind, wp_ret, wp_ret. split; [exact H7|exact V5]. }
    destruct r; [exact Hgo| |exact Hgo].
    apply wp_bind. eapply wp_mono; [apply k_end, H3| |auto]. intros [] s4 H4. apply wp_ret. auto.
  Qed.
  Lemma k_pmin cs sol base s : V sol -> P None s ->
    wp (p_minimization E cs sol base) (fun r s' => P None s' /\ V (snd (fst r))) X s.
  Proof.
    intros HV HP. unfold p_minimization. apply wp_bind, wp_gets, wp_bind.
    eapply wp_mono; [apply k_guard, HP| |auto]. intros [] s1 H1.
    apply wp_bind. eapply wp_mono; [apply k_start, H1| |auto]. intros [] s2 H2.
    assert (G : forall n x s, V (snd (fst x)) -> P None s ->
      wp (loop n (pmin_body E base) x) (fun r s' => P None s' /\ V (snd (fst r))) X s).
    { induction n as [|n IH]; intros x s' Vx Hx; cbn [loop].
      - apply wp_throw. eapply H_exit; [exact Hx|exact Logic.I].
      - apply wp_bind. eapply wp_mono; [apply k_pmin_body; eassumption| |auto].
        intros [y|y] s3 [H3 V3]; [apply IH; auto|]. apply wp_ret. auto. }
    apply G; auto.
  Qed.
  Lemma k_min_yield base : keeps None (minimize_and_yield E base).
  Proof.
    intros s HP. unfold minimize_and_yield. apply wp_bind.
    eapply wp_mono; [apply k_solution_costs, HP| |auto]. intros [cs sol] s1 [[V1 C1] H1]. cbn [fst snd] in V1, C1.
    apply wp_bind. eapply wp_mono; [apply k_cand; [exact C1|exact H1]| |auto]. intros [] s2 H2.
    apply wp_bind. eapply wp_mono; [apply k_check, H2| |auto]. intros [] s3 H3.
    apply wp_bind, wp_ret, wp_bind. eapply wp_mono; [apply k_pmin; eassumption| |auto].
    intros [[cs' sol'] sw] s4 [H4 V4]. cbn [fst snd] in V4.
    apply wp_bind. eapply wp_mono; [apply k_enforce, H4| |auto]. intros a s5 H5.
    apply wp_bind. eapply wp_mono; [apply k_yield; eassumption| |auto]. intros [] s6 H6.
    apply k_opt_clause, H6.
  Qed.
  Lemma k_pminimal_main : keeps None (pminimal_main E).
  Proof.
    apply k_gets. intros n. apply k_gets. intros n'. apply k_bind; [apply k_guard|]. intros _.
    apply k_bind; [apply k_start|]. intros _. apply k_loop. intros x.
    apply k_bind; [apply k_k_solve|]. intros r.
    assert (G : keeps None (check_termination E ;;; minimize_and_yield E [] ;;; ret (@inl unit unit tt))).
    { apply k_bind; [apply k_check|]. intros _. apply k_bind; [apply k_min_yield|]. intros _. apply k_ret. }
    destruct r; [exact G| |exact G]. apply k_bind; [apply k_end|]. intros _. apply k_ret.
  Qed.

  (** ** LowerBounding *)
  Lemma k_fence_init : keeps None fence_init.
  Proof.
    apply k_gets. intros f. destruct f; [|apply k_ret]. apply k_gets. intros n. apply k_forM. intros idx.
    apply k_bind; [apply k_get_enc|]. intros e. apply k_bind; [apply k_extend|]. intros _.
    apply k_bind; [apply k_get_enc|]. intros e'. apply k_bind; [apply k_unwrap|]. intros a.
    apply (k_fence None (fun s => s_fence s ++ [(oe_offset e', a)])).
  Qed.
  Lemma k_fence_raise idx : keeps None (fence_raise idx).
  Proof.
    apply k_gets. intros f. apply k_bind; [apply k_unwrap|]. intros ba.
    apply k_bind; [apply k_get_enc|]. intros e. apply k_bind; [apply k_unwrap|]. intros b.
    apply k_bind; [apply k_extend|]. intros _. apply k_bind; [apply k_get_enc|]. intros e'.
    apply k_bind; [apply k_unwrap|]. intros a.
    apply (k_fence None (fun s => set_nth idx (b, a) (s_fence s))).
  Qed.
  Lemma k_core_loop core : forall found, keeps None (fence_core_loop core found).
  Proof.
    induction core as [|c core IH]; intros found; cbn [fence_core_loop]; [apply k_ret|].
    apply k_gets. intros f. destruct (find_match c 0 found f); [|apply IH].
    apply k_bind; [apply k_fence_raise|]. intros _. apply IH.
  Qed.
  Lemma k_harvest base : keeps None (harvest E base).
  Proof.
    apply k_gets. intros n. apply k_gets. intros n'. apply k_bind; [apply k_guard|]. intros _.
    apply k_bind; [apply k_start|]. intros _. apply k_loop. intros x.
    apply k_gets. intros f. apply k_bind; [apply k_k_solve|]. intros r.
    assert (G : keeps None (check_termination E ;;; minimize_and_yield E base ;;; ret (@inl unit unit tt))).
    { apply k_bind; [apply k_check|]. intros _. apply k_bind; [apply k_min_yield|]. intros _. apply k_ret. }
    destruct r; [exact G| |exact G]. apply k_bind; [apply k_end|]. intros _. apply k_ret.
  Qed.
  Lemma k_lb_main : keeps None (lb_main E).
  Proof.
    apply k_gets. intros n. apply k_gets. intros n'. apply k_bind; [apply k_guard|]. intros _.
    apply k_bind; [apply k_start|]. intros _. apply k_bind; [apply k_fence_init|]. intros _.
    apply k_loop. intros x. apply k_gets. intros f. apply k_bind; [apply k_k_solve|]. intros r. destruct r.
    - apply k_bind; [apply k_harvest|]. intros _. apply k_ret.
    - apply k_bind; [apply k_core|]. intros core. destruct core as [|l core].
      + apply k_bind; [apply k_end|]. intros _. apply k_ret.
      + apply k_bind; [|intros _; apply k_gets; intros f'; apply k_bind; [apply k_guard|intros _; apply k_ret]].
        apply k_gets. intros f'. apply k_bind; [apply k_core_loop|]. intros _. apply k_gets. intros f2.
        apply k_emit. exact Logic.I.
    - apply k_throw; exact Logic.I.
  Qed.

  (** ** BiOptSat *)
  Lemma k_bi_body dbg base dlb ic sol ilb s : V sol -> P None s ->
    wp (bi_body_r dbg E base dlb (ic, sol, ilb))
      (fun r s' => P None s' /\ match r with inl y => V (snd (fst y)) | inr _ => True end) X s.
  Proof.
    intros HV HP. unfold bi_body_r. apply wp_bind.
    eapply wp_mono; [apply k_linsu; [exact HV|exact HP]| |auto].
    intros [[c sol1]|] s1 [H1 V1].
    2:{ apply wp_bind. eapply wp_mono; [apply k_end, H1| |auto]. intros [] s2 H2. apply wp_ret. auto. }
    apply wp_bind. eapply wp_mono; [apply k_get_cost, H1| |auto]. intros dc s2 H2.
    apply wp_bind. eapply wp_mono; [apply k_extend, H2| |auto]. intros [] s3 H3.
    apply wp_bind. eapply wp_mono; [apply k_get_enc, H3| |auto]. intros e s4 H4.
    apply wp_bind. eapply wp_mono; [apply k_unwrap, H4| |auto]. intros a s5 H5.
    apply wp_bind. eapply wp_mono; [apply k_linsu_yield; [exact V1|exact H5]| |auto]. intros r s6 [H6 V6].
    apply wp_bind. destruct r as [[dc' sol2]|]; [|apply wp_throw; eapply H_exit; [exact H6|exact Logic.I]].
    apply wp_ret. destruct (dc' <=? dlb).
    { apply wp_bind. eapply wp_mono; [apply k_end, H6| |auto]. intros [] s7 H7. apply wp_ret. auto. }
    apply wp_bind. eapply wp_mono; [apply k_extend, H6| |auto]. intros [] s7 H7.
    apply wp_bind. eapply wp_mono; [apply k_get_enc, H7| |auto]. intros e1 s8 H8.
    apply wp_bind. eapply wp_mono; [apply k_or_err; [exact Logic.I|exact H8]| |auto]. intros b s9 H9.
    apply wp_bind. eapply wp_mono; [apply k_add_clauses, H9| |auto]. intros [] s10 H10.
    apply wp_bind. eapply wp_mono; [apply k_k_solve, H10| |auto]. intros r s11 H11. destruct r.
    - apply wp_bind. eapply wp_mono; [apply H_solution, H11| |auto]. intros sol' s12 [V12 H12].
      apply wp_bind. eapply wp_mono; [apply k_get_cost, H12| |auto]. intros c' s13 H13. apply wp_ret. auto.
    - apply wp_bind. eapply wp_mono; [apply k_end, H11| |auto]. intros [] s12 H12. apply wp_ret. auto.
    - apply wp_throw. eapply H_exit; [exact H11|exact Logic.I].
  Qed.
  Lemma k_bi_main dbg : keeps None (bioptsat_r dbg E []).
  Proof.
    intros s HP. unfold bioptsat_r. apply wp_bind. eapply wp_mono; [apply k_start, HP| |auto]. intros [] s1 H1.
    apply wp_bind, wp_gets, wp_bind. eapply wp_mono; [apply k_guard, H1| |auto]. intros [] s2 H2.
    apply wp_bind. eapply wp_mono; [apply k_get_enc, H2| |auto]. intros e0 s3 H3.
    apply wp_bind. eapply wp_mono; [apply k_get_enc, H3| |auto]. intros e1 s4 H4.
    apply wp_bind. eapply wp_mono; [apply k_k_solve, H4| |auto]. intros r s5 H5.
    assert (Hgo : wp (sol <- oracle_solution ;; c <- get_cost 0 sol ;;
        loop (ev_fuel E) (bi_body_r dbg E [] (oe_offset e1)) (c, sol, oe_offset e0)) (fun _ => P None) X s5).
    { apply wp_bind. eapply wp_mono; [apply H_solution, H5| |auto]. intros sol s6 [V6 H6].
      apply wp_bind. eapply wp_mono; [apply k_get_cost, H6| |auto]. intros c s7 H7.
      assert (G : forall n x s, V (snd (fst x)) -> P None s ->
        wp (loop n (bi_body_r dbg E [] (oe_offset e1)) x) (fun _ => P None) X s).
      { induction n as [|n IH]; intros x s' Vx Hx; cbn [loop].
        - apply wp_throw. eapply H_exit; [exact Hx|exact Logic.I].
        - apply wp_bind. destruct x as [[a b] d]. eapply wp_mono; [apply k_bi_body; [exact Vx|exact Hx]| |auto].
          intros [y|y] s9 [H8 V8]; [apply IH; auto|]. apply wp_ret. auto. }
      apply G; auto. }
    destruct r; [exact Hgo| |exact Hgo]. now apply wp_ret.
  Qed.

  Lemma k_alg_main al s : P None s -> wp (alg_main al E) (fun _ => P None) X s.
  Proof. destruct al; [apply k_pminimal_main|apply k_lb_main|exact (k_bi_main true s)]. Qed.
End LStruct.
