(** * The routine events sent to a logger are well nested *)
From Coq Require Import List Bool Arith Lia ZArith.
From Verif Require Import Base BaseLemmas MTypes MKernel MPMinimal MLowerBounding MBiOptSat
  EncSpec ApiSpec Wp Struct LogSpec.
Import ListNotations.

Section LogBal.
  Context {I : enc_impl}.
  Notation st := (st I).
  Notation M := (M I).
  Variable E : environ.
  (** calls made before *)
  Variable t0 : list event.

  (** [d] routines are open *)
  Definition nest (d : nat) (s : st) : Prop :=
    exists evs, s_trace s = evs ++ t0 /\ (s_logger s = true -> open_routines evs = Some d) /\
      (s_logger s = false -> evs = []).
  Definition nestX (x : exit) (s : st) : Prop :=
    exists evs, s_trace s = evs ++ t0 /\ open_routines evs <> None.
  Lemma nest_X d x s : nest d s -> nestX x s.
  Proof.
    intros (evs & H1 & H2 & H3). exists evs. split; [exact H1|].
    destruct (s_logger s); [rewrite H2 by reflexivity; discriminate|]. rewrite H3 by reflexivity. discriminate.
  Qed.
  Lemma nest_same d s s' : s_trace s' = s_trace s -> s_logger s' = s_logger s -> nest d s -> nest d s'.
  Proof. intros H1 H2 H. unfold nest. rewrite H1, H2. exact H. Qed.

  (** from [m] open routines to [n r] where [r] is the value returned *)
  Definition bal {A} (m : nat) (n : A -> nat) (c : M A) : Prop := forall d s,
    nest (m + d) s -> wp c (fun r => nest (n r + d)) nestX s.
  Definition neutral {A} (c : M A) : Prop := forall m, bal m (fun _ => m) c.

  Lemma bal_bind {A B} m k n (c : M A) (f : A -> M B) :
    bal m k c -> (forall a, bal (k a) n (f a)) -> bal m n (bind c f).
  Proof.
    intros H1 H2 d s H. apply wp_bind. eapply wp_mono; [apply H1, H| |auto].
    intros a s' H'. apply H2, H'.
  Qed.
  Lemma bal_ret {A} m (n : A -> nat) a : n a = m -> bal m n (ret a).
  Proof. intros <- d s H. exact H. Qed.
  Lemma bal_neutral {A} m (n : A -> nat) (c : M A) : neutral c -> (forall a, n a = m) -> bal m n c.
  Proof.
    intros H Hn d s Hs. eapply wp_mono; [apply H, Hs| |auto]. intros a s'. cbn. now rewrite Hn.
  Qed.
  Lemma bal_n {A B} m n (c : M A) (f : A -> M B) : neutral c -> (forall a, bal m n (f a)) -> bal m n (bind c f).
  Proof. intros H1 H2. eapply bal_bind; [apply H1|exact H2]. Qed.
  Lemma bal_start {B} m n r (f : unit -> M B) : (forall a, bal (S m) n (f a)) -> bal m n (bind (log_start E r) f).
  Proof.
    intros H. apply (bal_bind m (fun _ => S m)); [|exact H].
    intros d s (evs & H1 & H2 & H3). unfold wp, log_start, emit. destruct (s_logger s) eqn:e.
    - assert (G : open_routines (EvStart r :: evs) = Some (S m + d)) by (cbn; rewrite H2; reflexivity).
      destruct (ev_logfail E (length (s_trace s))).
      + exists (EvStart r :: evs). cbn [s_trace set_trace]. rewrite H1. split; [reflexivity|]. congruence.
      + exists (EvStart r :: evs). cbn [s_trace set_trace s_logger]. rewrite H1. split; [reflexivity|].
        split; [auto|congruence].
    - exists evs. rewrite e. split; [exact H1|]. split; [discriminate|auto].
  Qed.
  Lemma bal_end {B} m n (f : unit -> M B) : (forall a, bal m n (f a)) -> bal (S m) n (bind (log_end E) f).
  Proof.
    intros H. apply (bal_bind (S m) (fun _ => m)); [|exact H].
    intros d s (evs & H1 & H2 & H3). unfold wp, log_end, emit. destruct (s_logger s) eqn:e.
    - assert (G : open_routines (EvEnd :: evs) = Some (m + d)) by (cbn; rewrite H2; reflexivity).
      destruct (ev_logfail E (length (s_trace s))).
      + exists (EvEnd :: evs). cbn [s_trace set_trace]. rewrite H1. split; [reflexivity|]. congruence.
      + exists (EvEnd :: evs). cbn [s_trace set_trace s_logger]. rewrite H1. split; [reflexivity|].
        split; [auto|congruence].
    - exists evs. rewrite e. split; [exact H1|]. split; [discriminate|auto].
  Qed.
  Lemma bal_loop {S A} k m (n : A -> nat) (body : S -> M (S + A)) :
    (forall x, bal m (fun r => match r with inl _ => m | inr a => n a end) (body x)) ->
    forall x, bal m n (loop k body x).
  Proof.
    intros Hb. induction k as [|k IH]; intros x; cbn [loop].
    - intros d s H. eapply nest_X, H.
    - eapply bal_bind; [apply Hb|]. intros [x'|a]; [apply IH|now apply bal_ret].
  Qed.

  (** *** Programs that do not touch routines *)
  Lemma n_ret {A} (a : A) : neutral (ret a).
  Proof. intros m d s H. exact H. Qed.
  Lemma n_throw {A} x : neutral (A := A) (throw x).
  Proof. intros m d s H. eapply nest_X, H. Qed.
  Lemma n_gets {A} (f : st -> A) : neutral (gets f).
  Proof. intros m d s H. exact H. Qed.
  Lemma n_bind {A B} (c : M A) (f : A -> M B) : neutral c -> (forall a, neutral (f a)) -> neutral (bind c f).
  Proof. intros H1 H2 m. eapply bal_n; [exact H1|]. intros a. apply H2. Qed.
  Lemma n_modify f : (forall s, s_trace (f s) = s_trace s /\ s_logger (f s) = s_logger s) -> neutral (modify f).
  Proof. intros Hf m d s H. destruct (Hf s). eapply nest_same; [| |exact H]; assumption. Qed.
  Lemma n_guard b : neutral (guard b).
  Proof. destruct b; [apply n_ret|apply n_throw]. Qed.
  Lemma n_unwrap {A} (o : option A) : neutral (unwrap o).
  Proof. destruct o; [apply n_ret|apply n_throw]. Qed.
  Lemma n_or_err {A} e (o : option A) : neutral (or_err e o).
  Proof. destruct o; [apply n_ret|apply n_throw]. Qed.
  Lemma n_rethrow {A} (r : A + exit) : neutral (rethrow r).
  Proof. destruct r; [apply n_ret|apply n_throw]. Qed.
  Lemma n_mapM {A B} (f : A -> M B) l : (forall a, neutral (f a)) -> neutral (mapM f l).
  Proof.
    intros H. induction l as [|a l IH]; cbn [mapM]; [apply n_ret|].
    apply n_bind; [apply H|]. intros b. apply n_bind; [exact IH|]. intros. apply n_ret.
  Qed.
  Lemma n_forM {A} (f : A -> M unit) l : (forall a, neutral (f a)) -> neutral (forM f l).
  Proof. intros H. induction l as [|a l IH]; cbn [forM]; [apply n_ret|]. apply n_bind; auto. Qed.
  Definition plain (e : event) : Prop := match e with EvStart _ | EvEnd => False | _ => True end.
  Lemma n_emit e : plain e -> neutral (emit E e).
  Proof.
    intros Hp m d s (evs & H1 & H2 & H3). unfold wp, emit. destruct (s_logger s) eqn:el.
    - assert (G : open_routines (e :: evs) = Some (m + d)) by (cbn; rewrite H2 by reflexivity; now destruct e).
      destruct (ev_logfail E (length (s_trace s))); exists (e :: evs); cbn [s_trace set_trace s_logger];
        rewrite H1; (split; [reflexivity|]); [congruence|]. split; [auto|congruence].
    - exists evs. rewrite el. split; [exact H1|]. split; [discriminate|auto].
  Qed.
  Lemma n_tick get put t : neutral (tick get put t).
  Proof.
    intros m d s H. unfold wp, tick. destruct (get (s_lims s)) as [[|n]|]; [eapply nest_X, H| |exact H].
    destruct (n =? 0); [eapply nest_X|]; (eapply nest_same; [| |exact H]; reflexivity).
  Qed.
  Lemma n_check : neutral (check_termination E).
  Proof.
    intros m d s H. unfold wp, check_termination.
    destruct (ev_flag E _); [eapply nest_X|]; (eapply nest_same; [| |exact H]; reflexivity).
  Qed.
  Lemma n_osolve b a : neutral (oracle_solve E b a).
  Proof.
    intros m d s H. unfold wp, oracle_solve.
    destruct (ev_oracle E _); try (eapply nest_same; [| |exact H]; reflexivity).
    eapply nest_X, (nest_same _ s); [reflexivity|reflexivity|exact H].
  Qed.
  Lemma n_catch {A} (c : M A) : neutral c -> (forall m d s, nest (m + d) s ->
      wp c (fun _ _ => True) (fun x s' => match x with ETerm _ | EErr _ => nest (m + d) s' | _ => True end) s) ->
    neutral (catch c).
  Proof.
    intros Hc He m d s H. apply wp_catch. specialize (Hc m d s H). specialize (He m d s H).
    unfold wp in *. destruct (c s) as [[a|x] s']; [exact Hc|]. destruct x; auto.
  Qed.
  Hint Resolve n_ret n_throw n_gets n_guard n_unwrap n_or_err n_rethrow n_tick n_check n_osolve : neut.

  Lemma n_log ev f get put t : plain ev ->
    (forall s, s_trace (f s) = s_trace s /\ s_logger (f s) = s_logger s) ->
    neutral (modify f ;;; emit E ev ;;; tick get put t).
  Proof.
    intros H1 H2. apply n_bind; [now apply n_modify|]. intros _. apply n_bind; [now apply n_emit|].
    intros _. apply n_tick.
  Qed.
  Lemma n_log_catch ev f get put t : plain ev ->
    (forall s, s_trace (f s) = s_trace s /\ s_logger (f s) = s_logger s) ->
    neutral (catch (modify f ;;; emit E ev ;;; tick get put t)).
  Proof.
    intros H1 H2. apply n_catch; [now apply n_log|]. intros m d s H.
    apply wp_bind, wp_modify, wp_bind. destruct (H2 s) as [H3 H4].
    apply (nest_same _ _ (f s) H3 H4) in H. destruct H as (evs & F1 & F2 & F3).
    unfold wp at 1, emit. destruct (s_logger (f s)) eqn:el.
    - assert (G : open_routines (ev :: evs) = Some (m + d)) by (cbn; rewrite F2 by reflexivity; now destruct ev).
      assert (HN : nest (m + d) (set_trace (ev :: s_trace (f s)) (f s))).
      { exists (ev :: evs). cbn [s_trace set_trace s_logger]. rewrite F1. split; [reflexivity|]. split; [auto|congruence]. }
      destruct (ev_logfail E _); [exact HN|]. unfold wp, tick.
      destruct (get _) as [[|k]|]; auto. destruct (k =? 0); auto.
    - assert (HN : nest (m + d) (f s)) by (exists evs; rewrite el; split; [exact F1|]; split; [discriminate|auto]).
      unfold wp, tick. destruct (get _) as [[|k]|]; auto. destruct (k =? 0); auto.
  Qed.
  Lemma n_log_candidate cs ph : neutral (log_candidate E cs ph).
  Proof.
    unfold log_candidate. apply n_bind; [auto with neut|]. intros n. apply n_bind; [auto with neut|].
    intros _. apply n_log; [exact Logic.I|split; reflexivity].
  Qed.
  Lemma n_log_oracle_call r : neutral (log_oracle_call E r).
  Proof. apply n_log; [exact Logic.I|split; reflexivity]. Qed.
  Lemma n_catch_solution : neutral (catch (log_solution E)).
  Proof. apply n_log_catch; [exact Logic.I|split; reflexivity]. Qed.
  Lemma n_catch_nd nd : neutral (catch (log_non_dominated E nd)).
  Proof. apply n_log_catch; [exact Logic.I|split; reflexivity]. Qed.
  Hint Resolve n_log_candidate n_log_oracle_call n_catch_solution n_catch_nd : neut.

  Ltac neu := repeat first
    [ apply n_bind; [solve [auto with neut]|intros]
    | solve [auto with neut]
    | (apply n_modify; intros; split; reflexivity) ].

  Lemma n_add_clause c : neutral (add_clause c).
  Proof. apply n_modify. split; reflexivity. Qed.
  Lemma n_add_clauses cs : neutral (add_clauses cs).
  Proof. apply n_forM, n_add_clause. Qed.
  Lemma n_oracle_solution : neutral oracle_solution.
  Proof. unfold oracle_solution. neu. destruct a1; auto with neut. Qed.
  Lemma n_oracle_core : neutral oracle_core.
  Proof. unfold oracle_core. neu. destruct a; auto with neut. Qed.
  Lemma n_get_cost i sol : neutral (get_cost i sol).
  Proof. unfold get_cost. neu. Qed.
  Lemma n_get_costs n sol : neutral (get_costs n sol).
  Proof. apply n_mapM. intros. apply n_get_cost. Qed.
  Hint Resolve n_add_clause n_add_clauses n_oracle_solution n_oracle_core n_get_cost n_get_costs : neut.
  Lemma n_solution_costs : neutral get_solution_and_internal_costs.
  Proof. unfold get_solution_and_internal_costs. neu. Qed.
  Lemma n_externalize cs : neutral (externalize_internal_costs cs).
  Proof. unfold externalize_internal_costs. neu. Qed.
  Lemma n_unphase : neutral unphase_solution.
  Proof. unfold unphase_solution. neu. destruct a; neu. Qed.
  Lemma n_phase sol : neutral (phase_solution sol).
  Proof. apply n_ret. Qed.
  Lemma n_front_push nd : neutral (front_push nd).
  Proof. apply n_modify. split; reflexivity. Qed.
  Lemma n_get_enc i : neutral (get_enc i).
  Proof. unfold get_enc. neu. Qed.
  Hint Resolve n_solution_costs n_externalize n_unphase n_phase n_front_push n_get_enc : neut.
  Lemma n_extend i lo hi : neutral (extend_encoding i lo hi).
  Proof.
    unfold extend_encoding. neu. destruct (oe_encode_ub _ _ _ _) as [[e' cl] n'].
    apply n_bind; [apply n_modify; split; reflexivity|]. auto with neut.
  Qed.
  Lemma n_new_var : neutral new_var.
  Proof. unfold new_var. neu. Qed.
  Hint Resolve n_extend n_new_var : neut.

  (** *** Routines *)
  Lemma n_k_solve a : neutral (k_solve_assumps E a).
  Proof.
    intros m. unfold k_solve_assumps. apply bal_start. intros ?.
    apply bal_n; [auto with neut|]. intros r. apply bal_end. intros ?.
    apply bal_n; [auto with neut|]. intros ?. apply bal_n; [auto with neut|]. intros ?. apply n_ret.
  Qed.
  Hint Resolve n_k_solve : neut.

  Lemma bal_end0 m : bal (S m) (fun _ => m) (log_end E).
  Proof.
    intros d s H. pose proof (bal_end m (fun _ => m) ret) as G.
    specialize (G (fun a => bal_ret _ _ _ eq_refl) d s H). unfold wp, bind in *.
    destruct (log_end E s) as [[u|x] s']; exact G.
  Qed.
  Lemma bal_finish m nd : bal (S m) (fun _ => m) (yield_finish E nd).
  Proof.
    unfold yield_finish. apply bal_n; [auto with neut|]. intros t. apply bal_n; [auto with neut|].
    intros ?. apply bal_end. intros ?. apply bal_neutral; [auto with neut|auto].
  Qed.
  Ltac nb := apply bal_n; [solve [auto with neut]|intros].
  Ltac dm := match goal with
    | |- bal _ _ (match ?r with _ => _ end) => destruct r
    | |- neutral (match ?r with _ => _ end) => destruct r end.
  Lemma n_yield cs a sol : neutral (yield_solutions E cs a sol).
  Proof.
    intros m. unfold yield_solutions. nb. nb. apply bal_start. intros ?. nb. nb.
    apply bal_loop. intros [sol0 nd]. unfold yield_body. nb. nb. nb. nb. nb.
    match goal with |- bal _ _ (match ?t with _ => _ end) => destruct t as [u|x] end.
    - nb. match goal with |- bal _ _ (if ?b then _ else _) => destruct b end.
      + eapply bal_bind; [apply bal_finish|]. intros ?. now apply bal_ret.
      + nb. nb. nb. nb. nb. match goal with |- bal _ _ (match ?r with _ => _ end) => destruct r end.
        * nb. nb. now apply bal_ret.
        * eapply bal_bind; [apply bal_finish|]. intros ?. now apply bal_ret.
        * nb. nb. now apply bal_ret.
    - nb. nb. nb. intros d s H. eapply nest_X, H.
  Qed.
  Hint Resolve n_yield : neut.

  (** P-minimal *)
  Lemma n_enforce_dominating cs : neutral (enforce_dominating cs).
  Proof.
    unfold enforce_dominating. neu. apply n_bind.
    { apply n_forM. intros. auto with neut. }
    intros ?. apply n_bind; [|auto with neut]. apply n_mapM. intros. neu.
  Qed.
  Lemma n_block_lits ic : neutral (block_lits ic).
  Proof.
    destruct ic as [idx cst]. unfold block_lits. neu. destruct (_ <=? _); [auto with neut|].
    assert (G : neutral (extend_encoding idx (cst - 1) cst ;;; e' <- get_enc idx ;;
       a0 <- or_err ErrEnc (oe_enforce_ub e' (cst - 1)) ;;
       match a0 with
       | [l] => ret [l]
       | _ => guard (match a0 with [] => false | _ => true end) ;;;
              v <- new_var ;; add_clauses (lit_impl_cube (pos v) a0) ;;; ret [pos v]
       end)).
    { neu. destruct a2 as [|l [|l' r]]; neu. }
    dm; [exact G|exact G|auto with neut].
  Qed.
  Lemma n_block cs : neutral (dominated_block_clause cs).
  Proof.
    unfold dominated_block_clause. neu. apply n_bind; [|auto with neut]. apply n_mapM, n_block_lits.
  Qed.
  Hint Resolve n_enforce_dominating n_block : neut.
  Lemma n_tmp_block cs : neutral (tmp_block_dominated cs).
  Proof. unfold tmp_block_dominated. neu. Qed.
  Hint Resolve n_tmp_block : neut.

  Lemma n_sw (sw : option lit) : neutral (match sw with Some b => add_clause [b] | None => ret tt end).
  Proof. destruct sw; auto with neut. Qed.
  Hint Resolve n_sw : neut.

  Lemma n_pmin cs sol base : neutral (p_minimization E cs sol base).
  Proof.
    intros m. unfold p_minimization. nb. nb. apply bal_start. intros ?. apply bal_loop. intros [[cs0 sol0] sw].
    unfold pmin_body. nb. apply bal_n.
    { dm.
      - apply n_bind; [auto with neut|]. intros c. neu.
      - neu.
      - neu. }
    intros sw'. nb. nb. match goal with |- bal _ _ (match ?r with _ => _ end) => destruct r end.
    - nb. nb. dm. nb. nb. nb. now apply bal_ret.
    - apply bal_end. intros ?. now apply bal_ret.
    - nb. nb. dm. nb. nb. nb. now apply bal_ret.
  Qed.
  Hint Resolve n_pmin : neut.
  Lemma n_min_yield base : neutral (minimize_and_yield E base).
  Proof.
    unfold minimize_and_yield. repeat first [progress neu|dm].
  Qed.
  Hint Resolve n_min_yield : neut.
  Lemma n_pminimal_main : neutral (pminimal_main E).
  Proof.
    intros m. unfold pminimal_main. nb. nb. nb. apply bal_start. intros ?. apply bal_loop. intros x.
    unfold pminimal_body, k_solve. nb. dm.
    - nb. nb. now apply bal_ret.
    - apply bal_end. intros ?. now apply bal_ret.
    - nb. nb. now apply bal_ret.
  Qed.

  (** Lower-bounding *)
  Lemma n_fence_init : neutral fence_init.
  Proof.
    unfold fence_init. neu. dm; [|auto with neut]. neu. apply n_forM. intros i.
    unfold fence_init_one. neu.
  Qed.
  Lemma n_fence_core core : forall found, neutral (fence_core_loop core found).
  Proof.
    induction core as [|l core IH]; intros found; cbn [fence_core_loop]; [auto with neut|].
    neu. destruct (find_match _ _ _ _); [|apply IH]. apply n_bind; [|intros; apply IH].
    unfold fence_raise. neu.
  Qed.
  Lemma n_update_fence core : neutral (update_fence E core).
  Proof.
    unfold update_fence. neu. apply n_bind; [apply n_fence_core|]. intros. neu.
    apply n_emit. exact Logic.I.
  Qed.
  Lemma n_harvest base : neutral (harvest E base).
  Proof.
    intros m. unfold harvest. nb. nb. nb. apply bal_start. intros ?. apply bal_loop. intros x.
    unfold harvest_body. nb. nb. dm.
    - nb. nb. now apply bal_ret.
    - apply bal_end. intros ?. now apply bal_ret.
    - nb. nb. now apply bal_ret.
  Qed.
  Hint Resolve n_fence_init n_update_fence n_harvest : neut.
  Lemma n_lb_main : neutral (lb_main E).
  Proof.
    intros m. unfold lb_main. nb. nb. nb. apply bal_start. intros ?. nb. apply bal_loop. intros x.
    unfold lb_body. nb. nb. dm.
    - nb. now apply bal_ret.
    - nb. dm.
      + apply bal_end. intros ?. now apply bal_ret.
      + nb. nb. nb. now apply bal_ret.
    - intros d s H. eapply nest_X, H.
  Qed.

  (** BiOptSat: one routine may stay open *)
  Lemma n_linsu idx base ub lb : neutral (linsu E idx base ub lb).
  Proof.
    intros m. unfold linsu. apply bal_start. intros ?.
    apply bal_n.
    { unfold linsu_start. repeat first [progress neu|dm]. }
    intros [x|].
    - apply (bal_bind _ (fun r => match r with inl _ => m | inr _ => S m end)).
      + apply bal_loop. intros [c so]. unfold linsu_body. destruct (_ <=? _); [now apply bal_ret|].
        nb. nb. nb. nb. dm.
        * nb. nb. nb. nb. nb. nb. destruct (_ <=? _).
          -- apply bal_end. intros ?. now apply bal_ret.
          -- now apply bal_ret.
        * now apply bal_ret.
        * intros d s H. eapply nest_X, H.
      + intros [r|[c so]].
        * now apply bal_ret.
        * apply bal_n.
          { unfold linsu_final. repeat first [progress neu|dm]. }
          intros ?. apply bal_end. intros ?. now apply bal_ret.
    - apply bal_end. intros ?. now apply bal_ret.
  Qed.
  Hint Resolve n_linsu : neut.
  Lemma n_linsu_yield idx base ub lb : neutral (linsu_yield E idx base ub lb).
  Proof.
    unfold linsu_yield. repeat first [progress neu|dm].
  Qed.
  Hint Resolve n_linsu_yield : neut.

  Definition somelow (m : nat) (s : st) (d : nat) : Prop := nest d s \/ nest (S m + d) s.
  Lemma bi_main_nest d s : nest d s -> wp (bi_main E) (fun _ s' => nest d s' \/ nest (S d) s') nestX s.
  Proof.
    intros H. unfold bi_main, bioptsat.
    assert (G : bal 1 (fun r : bool => if r then 0 else 1)
       (n <- gets (fun s => length (p_encs (s_prob s))) ;;
        guard (n =? 2) ;;; e0 <- get_enc 0 ;; e1 <- get_enc 1 ;;
        r <- k_solve_assumps E [] ;;
        match r with
        | RUnsat => ret false
        | _ => sol <- oracle_solution ;; c <- get_cost 0 sol ;;
               loop (ev_fuel E) (bi_body E [] (oe_offset e1)) (c, sol, oe_offset e0) ;;; ret true
        end)).
    { nb. nb. nb. nb. nb.
      assert (GL : forall x lb, bal 1 (fun _ => 0) (loop (ev_fuel E) (bi_body E [] lb) x)).
      { intros x lb. revert x. apply bal_loop. intros [[ic sol] il]. unfold bi_body. nb.
        dm.
        - dm. nb. nb. nb. nb. nb. nb. dm. destruct (_ <=? _).
          + apply bal_end. intros ?. now apply bal_ret.
          + nb. nb. nb. nb. nb. dm.
            * nb. nb. now apply bal_ret.
            * apply bal_end. intros ?. now apply bal_ret.
            * intros d0 s0 H0. eapply nest_X, H0.
        - apply bal_end. intros ?. now apply bal_ret. }
      dm.
      - nb. nb. eapply bal_bind; [apply GL|]. intros ?. now apply bal_ret.
      - now apply bal_ret.
      - nb. nb. eapply bal_bind; [apply GL|]. intros ?. now apply bal_ret. }
    assert (G' := bal_start 0 _ RtBiOptSat (fun _ => _) (fun _ => G) d s H).
    revert G'. unfold wp, bind. destruct (log_start E RtBiOptSat s) as [[u|x] s1]; [|auto].
    unfold gets. destruct (guard _ s1) as [[u2|x] s2]; [|auto].
    destruct (get_enc 0 s2) as [[e0|x] s3]; [|auto]. destruct (get_enc 1 s3) as [[e1|x] s4]; [|auto].
    destruct (k_solve_assumps E [] s4) as [[r|x] s5]; [|auto].
    destruct r.
    - destruct (oracle_solution s5) as [[sol|x] s6]; [|auto]. destruct (get_cost 0 sol s6) as [[c|x] s7]; [|auto].
      destruct (loop _ _ _ s7) as [[v|x] s8]; cbn; auto.
    - cbn. auto.
    - destruct (oracle_solution s5) as [[sol|x] s6]; [|auto]. destruct (get_cost 0 sol s6) as [[c|x] s7]; [|auto].
      destruct (loop _ _ _ s7) as [[v|x] s8]; cbn; auto.
  Qed.
End LogBal.

(** One call of [solve] *)
Lemma log_solve {I} al E l (s : st I) :
  wp (alg_solve al E l)
    (fun _ s' => exists evs, s_trace s' = evs ++ s_trace s /\ open_routines evs <> None /\
       (al <> ABiOptSat -> open_routines evs = Some 0))
    (fun _ s' => exists evs, s_trace s' = evs ++ s_trace s /\ open_routines evs <> None) s.
Proof.
  rewrite alg_solve_eq. apply wp_bind, wp_modify.
  set (s1 := set_lims _ _). change (s_trace s) with (s_trace s1).
  assert (H : nest (s_trace s1) 0 s1).
  { exists []. split; [reflexivity|]. split; reflexivity. }
  generalize dependent s1. intros s1 H.
  assert (Hd : forall d (s' : st I), nest (s_trace s1) d s' -> exists evs, s_trace s' = evs ++ s_trace s1 /\
     open_routines evs <> None /\ (d = 0 -> open_routines evs = Some 0)).
  { intros d s' (evs & F1 & F2 & F3). exists evs. split; [exact F1|]. destruct (s_logger s').
    - rewrite F2 by reflexivity. split; [discriminate|]. now intros ->.
    - rewrite F3 by reflexivity. split; [discriminate|reflexivity]. }
  assert (G : al <> ABiOptSat -> neutral (s_trace s1) (alg_main (I := I) al E)).
  { intros Ha. destruct al; [apply n_pminimal_main|apply n_lb_main|congruence]. }
  destruct al.
  - eapply wp_mono; [apply (G ltac:(discriminate) 0 0 s1 H)| |auto]. intros [] s' H'.
    destruct (Hd _ _ H') as (evs & F1 & F2 & F3). exists evs. auto.
  - eapply wp_mono; [apply (G ltac:(discriminate) 0 0 s1 H)| |auto]. intros [] s' H'.
    destruct (Hd _ _ H') as (evs & F1 & F2 & F3). exists evs. auto.
  - eapply wp_mono; [apply (bi_main_nest E (s_trace s1) 0 s1 H)| |auto]. intros [] s' [H'|H'];
    destruct (Hd _ _ H') as (evs & F1 & F2 & F3); exists evs; (split; [exact F1|]); (split; [exact F2|]); congruence.
Qed.
