(** * Correctness of the kernel operations *)
From Coq Require Import List Bool Arith Lia ZArith.
From Verif Require Import Base BaseLemmas MTypes MKernel EncSpec Wp Sem.
Import ListNotations.

Lemma NoDup_snoc {A} (l : list A) a : NoDup l -> ~ In a l -> NoDup (l ++ [a]).
Proof.
  induction l as [|x l IH]; cbn; intros H Hn; [repeat constructor; intros []|].
  inversion H; subst. constructor; [|apply IH; tauto].
  intros Hin. apply in_app_or in Hin. destruct Hin as [Hin|[<-|[]]]; tauto.
Qed.

(** ** Solutions and costs *)

Definition sol_rep (n : nat) (m : asg) (sol : assignment) : Prop :=
  exists v, n <= v /\ sol = sol_of m v.

Lemma sol_cost_rep o n m sol :
  (forall v, In v (lits_vars (map fst (obj_iter o))) -> v <= n) ->
  sol_rep n m sol -> sol_cost o sol = icost o m.
Proof.
  intros Hv (v & Hn & ->). unfold sol_cost, icost.
  induction (obj_iter o) as [|[l w] r IH]; [reflexivity|]. cbn [map list_sum fst snd wsum].
  rewrite lit_value_sol_of by (assert (lvar l <= n) by (apply Hv; now left); lia).
  cbn [is_true]. change (list_sum (?a :: ?b)) with (a + list_sum b).
  rewrite IH by (intros u Hu; apply Hv; now right). destruct (lit_true m l); reflexivity.
Qed.

Lemma sol_rep_trunc n m sol mo : mo <= n -> sol_rep n m sol -> truncate sol mo = sol_of m mo.
Proof. intros Hm (v & Hn & ->). apply truncate_sol_of. lia. Qed.

(** ** Optimality of internal cost vectors *)
Definition ipareto (F : asg -> Prop) (os : list objective) (c : list nat) : Prop :=
  (exists a, F a /\ ic os a = c) /\ (forall b, F b -> vle (ic os b) c -> ic os b = c).

(** A reported point: its costs are the external form of [c], its solutions are feasible
    assignments of cost [c], cut to the original variables *)
Record pt_ok (F : asg -> Prop) (os : list objective) (mo : nat) (nd : nd_point assignment)
  (c : list nat) : Prop := mkPt {
  pt_ext : externalize_all os c = Some (nd_costs nd);
  pt_opt : ipareto F os c;
  pt_ne : nd_sols nd <> [];
  pt_nodup : NoDup (nd_sols nd);
  pt_sols : forall sol, In sol (nd_sols nd) -> exists a, F a /\ ic os a = c /\ sol = sol_of a mo }.

(** The clause that blocks a solution during enumeration blocks that solution, mentions
    original variables only, and blocks no better assignment. *)
Definition blk_ok (F : asg -> Prop) (o : kopts) (os : list objective) (mo : nat) : Prop :=
  o_enum o = NoEnum \/
  forall m, F m -> ipareto F os (ic os m) ->
    exists c, yield_block_clause o os (sol_of m mo) = Some c /\
      (forall v, In v (lits_vars c) -> v <= mo) /\ clause_true m c = false /\
      (forall a, F a -> clause_true a c = false -> vle (ic os m) (ic os a)).

(** Which solutions enumeration finds at a point of cost [cs], among those in [A] *)
Definition covered (o : kopts) (os : list objective) (A : asg -> Prop) (cs : list nat)
  (sols : list assignment) : Prop :=
  forall a, A a -> ic os a = cs -> exists sol c, In sol sols /\
    yield_block_clause o os sol = Some c /\ clause_true a c = false.
Definition enum_limit (e : enum_opts) : option nat :=
  match e with NoEnum => Some 1 | Solutions l => l | PMCSs l => l end.
(** [sol] satisfies clause [c] *)
Definition hits (c : clause) (sol : assignment) : Prop :=
  exists l, In l c /\ lit_value sol l = Some true.
(** later solutions satisfy the blocking clauses of earlier ones *)
Definition ordered (o : kopts) (os : list objective) (sols : list assignment) : Prop :=
  ForallOrdPairs (fun s1 s2 => forall c, yield_block_clause o os s1 = Some c -> hits c s2) sols.
Definition enum_post (o : kopts) (os : list objective) (A : asg -> Prop) (cs : list nat)
  (sols : list assignment) : Prop :=
  (forall k, enum_limit (o_enum o) = Some k -> length sols <= Nat.max 1 k) /\
  (covered o os A cs sols \/ exists k, enum_limit (o_enum o) = Some k /\ k <= length sols) /\
  ordered o os sols.

Lemma FOP_snoc {A} (R : A -> A -> Prop) l a : ForallOrdPairs R l -> (forall x, In x l -> R x a) ->
  ForallOrdPairs R (l ++ [a]).
Proof.
  induction 1 as [|x l H1 H2 IH]; intros H; cbn.
  - repeat constructor.
  - constructor; [apply Forall_app; split; [exact H1|constructor; [apply H; now left|constructor]]|].
    apply IH. intros y Hy. apply H. now right.
Qed.
Lemma clause_true_hits m mo c : (forall v, In v (lits_vars c) -> v <= mo) -> clause_true m c = true ->
  hits c (sol_of m mo).
Proof.
  intros Hv H. apply clause_true_iff in H. destruct H as (l & H1 & H2). exists l.
  split; [exact H1|]. rewrite lit_value_sol_of; [now rewrite H2|]. apply Hv. now apply in_map.
Qed.

(** Number of different solutions over [n] variables *)
Fixpoint all_asgs (n : nat) : list assignment :=
  match n with
  | 0 => [[]]
  | S n' => flat_map (fun s => [s ++ [Some true]; s ++ [Some false]]) (all_asgs n')
  end.
Lemma all_asgs_length n : length (all_asgs n) = 2 ^ n.
Proof.
  induction n; cbn [all_asgs]; [reflexivity|]. cbn [Nat.pow]. rewrite <- IHn. clear IHn.
  induction (all_asgs n); cbn; [reflexivity|]. rewrite IHl. lia.
Qed.
Lemma all_asgs_in m n : In (map (fun i => Some (m i)) (seq 0 n)) (all_asgs n).
Proof.
  induction n as [|n IH]; [left; reflexivity|]. rewrite seq_S, map_app. cbn [all_asgs].
  apply in_flat_map. eexists. split; [exact IH|]. cbn. destruct (m n); auto.
Qed.
Lemma sols_bound mo sols : NoDup sols -> (forall s, In s sols -> exists m, s = sol_of m mo) ->
  length sols <= 2 ^ (S mo).
Proof.
  intros Hd H. rewrite <- all_asgs_length. apply NoDup_incl_length; [assumption|].
  intros s Hs. destruct (H s Hs) as (m & ->). apply all_asgs_in.
Qed.

Section Kern.
  Context {I : enc_impl} (SP : enc_spec I).
  Notation M := (M I).
  Notation st := (st I).
  Variable E : environ.
  Hypothesis HO : oracle_ok E.
  Variable F : asg -> Prop.
  (** bound on the fuel the loops need *)
  Variable B : nat.

  Definition xok (x : exit) : Prop := good_exit x \/ (x = ENoFuel /\ ev_fuel E <= B).
  Lemma good_xok x : good_exit x -> xok x.
  Proof. now left. Qed.

  (** ** State relations *)
  Record adv (s s' : st) : Prop := mkAdv {
    ad_fence : s_fence s' = s_fence s;
    ad_cnf : s_cnf s' = s_cnf s;
    ad_opts : s_opts s' = s_opts s;
    ad_nobjs : n_objs (s_stats s') = n_objs (s_stats s);
    ad_solves : n_solve_calls (s_stats s') = n_solve_calls (s_stats s);
    ad_ext : ext SP (s_prob s) (s_prob s') }.
  Record keep (s s' : st) : Prop := mkKeep {
    kp_adv : adv s s';
    kp_front : s_front s' = s_front s }.

  Lemma adv_refl s : adv s s.
  Proof. constructor; auto using ext_refl. Qed.
  Lemma adv_trans a b c : adv a b -> adv b c -> adv a c.
  Proof. intros [] []. constructor; try congruence. eapply ext_trans; eauto. Qed.
  Lemma keep_refl s : keep s s.
  Proof. constructor; auto using adv_refl. Qed.
  Lemma keep_trans a b c : keep a b -> keep b c -> keep a c.
  Proof. intros [] []. constructor; [eapply adv_trans; eauto|congruence]. Qed.
  Lemma solved_keep s s' : solved s s' -> keep s s'.
  Proof.
    intros [[] Hp]. constructor; [|assumption]. constructor; try assumption.
    rewrite Hp. apply ext_refl.
  Qed.
  Lemma quiet_keep s s' : quiet s s' -> keep s s'.
  Proof. intros H. apply solved_keep, quiet_solved, H. Qed.
  Lemma adv_objs s s' : adv s s' -> p_objs (s_prob s') = p_objs (s_prob s).
  Proof. intros []. apply (ext_objs SP _ _ ad_ext0). Qed.

  (** Everything an operation needs *)
  Record K (A S : asg -> Prop) (s : st) : Prop := mkK {
    k_lims : lims_ok s;
    k_nobjs : n_objs (s_stats s) = length (p_objs (s_prob s));
    k_inv : Inv SP F (s_prob s) A S }.

  Lemma K_quiet A S s s' : quiet s s' -> lims_ok s' -> K A S s -> K A S s'.
  Proof.
    intros [[] Hp Ho] HL []. constructor; [assumption|congruence|]. now rewrite Hp.
  Qed.
  Lemma K_solved A S s s' : solved s s' -> lims_ok s' -> K A S s -> K A S s'.
  Proof.
    intros [[] Hp] HL []. constructor; [assumption|congruence|]. now rewrite Hp.
  Qed.
  Lemma K_next A S s : K A S s -> vm_max_enc (p_vm (s_prob s)) <= vm_next (p_vm (s_prob s)) - 1
    /\ 0 < vm_next (p_vm (s_prob s)).
  Proof. intros []. pose proof (wf_enc _ _ _ (inv_wf _ _ _ _ _ k_inv0)). lia. Qed.

  (** ** Costs *)
  Lemma wp_get_cost A S i o m sol (Q : nat -> st -> Prop) (X : exit -> st -> Prop) s : K A S s -> nth_error (p_objs (s_prob s)) i = Some o ->
    sol_rep (vm_max_enc (p_vm (s_prob s))) m sol -> Q (icost o m) s ->
    wp (get_cost i sol) Q X s.
  Proof.
    intros HK Ho Hsol HQ. unfold get_cost. apply wp_bind, wp_gets, wp_bind, wp_guard.
    { apply Nat.ltb_lt. rewrite (k_nobjs _ _ _ HK). apply nth_error_Some. congruence. }
    apply wp_bind, wp_gets, wp_bind, (wp_unwrap _ o); [assumption|]. apply wp_ret.
    erewrite sol_cost_rep; [exact HQ| |exact Hsol]. intros v Hv.
    apply (wf_objs _ _ _ (inv_wf _ _ _ _ _ (k_inv _ _ _ HK)) o v); [|assumption].
    eapply nth_error_In; eauto.
  Qed.

  Lemma wp_get_costs A S m sol (Q : list nat -> st -> Prop) (X : exit -> st -> Prop) s : K A S s ->
    sol_rep (vm_max_enc (p_vm (s_prob s))) m sol -> Q (ic (p_objs (s_prob s)) m) s ->
    wp (get_costs (length (p_objs (s_prob s))) sol) Q X s.
  Proof.
    intros HK Hsol HQ. unfold get_costs.
    set (os := p_objs (s_prob s)) in *.
    apply wp_mapM with
      (P := fun pre bs s' => s' = s /\ bs = ic (firstn (length pre) os) m /\
              pre = seq 0 (length pre)).
    - intros pre a post bs s' Hl (-> & -> & Hpre).
      assert (Ha : a = length pre /\ a < length os).
      { assert (Hlen : length (seq 0 (length os)) = length (pre ++ a :: post)) by congruence.
        rewrite seq_length, app_length in Hlen. cbn in Hlen.
        assert (Hn : nth (length pre) (seq 0 (length os)) 0 = a).
        { rewrite Hl, app_nth2, Nat.sub_diag by lia. reflexivity. }
        rewrite seq_nth in Hn by lia. lia. }
      destruct Ha as [Ha Hlt].
      destruct (nth_error os a) as [o|] eqn:Ho; [|apply nth_error_None in Ho; lia].
      eapply wp_get_cost; eauto. split; [reflexivity|]. split.
      + rewrite app_length. cbn [length]. rewrite Nat.add_1_r, <- Ha.
        assert (Hfs : firstn (Datatypes.S a) os = firstn a os ++ [o]).
        { clear - Ho. revert a Ho. induction os as [|x l IH]; intros [|a] H; cbn in *; try discriminate.
          - injection H as ->. reflexivity.
          - rewrite IH; auto. }
        rewrite Hfs. unfold ic. rewrite map_app. reflexivity.
      + rewrite app_length. cbn [length]. rewrite Nat.add_1_r, seq_S, <- Hpre. cbn. now rewrite Ha.
    - repeat split.
    - intros bs s' (-> & -> & _). rewrite seq_length, firstn_all. exact HQ.
  Qed.

  Lemma wp_get_solution_and_internal_costs A S m (Q : list nat * assignment -> st -> Prop) (X : exit -> st -> Prop) s : K A S s -> s_ora s = OModel m ->
    (forall sol, sol_rep (vm_max_enc (p_vm (s_prob s))) m sol ->
       Q (ic (p_objs (s_prob s)) m, sol) s) ->
    wp get_solution_and_internal_costs Q X s.
  Proof.
    intros HK Ho HQ. unfold get_solution_and_internal_costs.
    destruct (K_next _ _ _ HK) as [Hn1 Hn2].
    assert (Hsol : sol_rep (vm_max_enc (p_vm (s_prob s))) m
                     (sol_of m (vm_next (p_vm (s_prob s)) - 1))).
    { eexists. split; [exact Hn1|reflexivity]. }
    apply wp_bind. eapply wp_oracle_solution; eauto.
    apply wp_bind, wp_gets, wp_bind. eapply wp_get_costs; eauto.
    apply wp_bind, wp_gets, wp_bind, wp_guard.
    { apply Nat.eqb_eq. rewrite ic_length. symmetry. apply HK. }
    apply wp_ret, HQ, Hsol.
  Qed.

  (** ** Clauses, variables, encodings *)
  Lemma K_add_clause A S (A' : asg -> Prop) s c : K A S s ->
    (forall v, In v (lits_vars c) -> live SP (s_prob s) v) ->
    (forall a, A' a -> A a) ->
    (forall a b, agree (low (s_prob s)) a b -> A' a -> A' b) ->
    (forall m, sat m (p_cls (s_prob s)) -> clause_true m c = true -> A' m) ->
    (forall m, A' m -> sat m (p_cls (s_prob s)) -> Exact SP (s_prob s) m -> S m ->
       clause_true m c = true) ->
    let s' := set_ora OIdle (set_prob (set_cls (c :: p_cls (s_prob s)) (s_prob s)) s) in
    K A' S s' /\ keep s s'.
  Proof.
    intros HK H1 H2 H3 H4 H5 s'. split.
    - constructor; [apply HK|apply HK|]. cbn. eapply add_clause_inv; eauto. apply HK.
    - constructor; [|reflexivity]. constructor; try reflexivity. cbn. apply add_clause_ext.
  Qed.

  Lemma wp_add_clauses A S cs (Q : unit -> st -> Prop) (X : exit -> st -> Prop) s : K A S s ->
    (forall c v, In c cs -> In v (lits_vars c) -> live SP (s_prob s) v) ->
    (forall c m, In c cs -> A m -> sat m (p_cls (s_prob s)) -> Exact SP (s_prob s) m -> S m ->
       clause_true m c = true) ->
    (forall s', K A S s' -> keep s s' -> s_lims s' = s_lims s ->
       p_encs (s_prob s') = p_encs (s_prob s) ->
       (forall c, In c cs -> In c (p_cls (s_prob s'))) -> Q tt s') ->
    wp (add_clauses cs) Q X s.
  Proof.
    intros HK Hv Hc HQ. unfold add_clauses.
    apply wp_forM with (P := fun pre s' => K A S s' /\ keep s s' /\ s_lims s' = s_lims s /\
      p_encs (s_prob s') = p_encs (s_prob s) /\ p_vm (s_prob s') = p_vm (s_prob s) /\
      (forall c, In c pre -> In c (p_cls (s_prob s')))).
    - intros pre c post s1 Hl (K1 & K2 & K3 & K4 & K5 & K6).
      apply wp_modify.
      assert (Hin : In c cs) by (rewrite Hl; apply in_or_app; right; now left).
      destruct (K_add_clause A S A s1 c) as [G1 G2]; auto.
      + intros v Hvv. unfold live. rewrite K4, K5. eapply Hv; eauto.
      + apply (inv_Acl _ _ _ _ _ (k_inv _ _ _ K1)).
      + intros m Hm _. apply (inv_sound _ _ _ _ _ (k_inv _ _ _ K1)), Hm.
      + intros m HA Hs Hx HS. eapply Hc; eauto.
        * eapply ext_sat; [|exact Hs]. apply (ad_ext _ _ (kp_adv _ _ K2)).
        * intros e He. apply Hx. rewrite K4. assumption.
      + split; [exact G1|]. split; [eapply keep_trans; eauto|]. cbn. repeat (split; [assumption|]).
        intros c' Hc'. apply in_app_or in Hc'. destruct Hc' as [Hc'|[->|[]]]; auto.
    - split; [exact HK|]. split; [apply keep_refl|]. repeat (split; [reflexivity|]). intros c [].
    - intros s' (K1 & K2 & K3 & K4 & K5 & K6). auto.
  Qed.

  Lemma wp_new_var A S (d : asg -> bool) (Q : nat -> st -> Prop) (X : exit -> st -> Prop) s : K A S s ->
    (forall a b, agree (live SP (s_prob s)) a b -> d a = d b) ->
    (forall v s', v = vm_next (p_vm (s_prob s)) ->
       K A (fun m => S m /\ m v = d m) s' -> keep s s' -> s_lims s' = s_lims s ->
       live SP (s_prob s') v -> ~ live SP (s_prob s) v ->
       p_encs (s_prob s') = p_encs (s_prob s) -> p_cls (s_prob s') = p_cls (s_prob s) ->
       Q v s') ->
    wp new_var Q X s.
  Proof.
    intros HK Hd HQ. unfold new_var. apply wp_bind, wp_gets, wp_bind, wp_modify, wp_ret.
    destruct (newvar_inv SP _ _ _ _ d (k_inv _ _ _ HK) Hd) as (H1 & H2 & H3).
    apply HQ; try reflexivity; try assumption.
    - constructor; try apply HK. exact H1.
    - constructor; [|reflexivity]. constructor; try reflexivity. cbn. apply newvar_ext.
  Qed.

  Lemma wp_extend_encoding A S i e lo hi (Q : unit -> st -> Prop) (X : exit -> st -> Prop) s : K A S s ->
    nth_error (p_encs (s_prob s)) i = Some e ->
    (forall e' s', K A S s' -> keep s s' -> s_lims s' = s_lims s ->
       p_encs (s_prob s') = set_nth i e' (p_encs (s_prob s)) ->
       nth_error (p_encs (s_prob s')) i = Some e' ->
       oe_offset e' = oe_offset e -> oe_cap SP e' = oe_cap SP e ->
       (e' = EConstant <-> e = EConstant) ->
       (forall b, oe_offset e <= b -> lo <= b < hi -> oe_enforce_ub e' b <> None) ->
       Q tt s') ->
    wp (extend_encoding i lo hi) Q X s.
  Proof.
    intros HK He HQ. unfold extend_encoding, get_enc.
    apply wp_bind, wp_bind, wp_gets, (wp_unwrap _ e); [assumption|].
    apply wp_bind, wp_gets.
    destruct (oe_encode_ub e lo hi (vm_next (p_vm (s_prob s)))) as [[e' cl] n'] eqn:Henc.
    pose proof (oe_encode_step SP _ _ _ _ _ _ _ Henc) as Hs.
    pose proof (k_inv _ _ _ HK) as HI.
    pose proof (encode_inv SP _ _ _ _ _ _ _ _ _ _ _ HI He Hs) as HI'.
    pose proof (encode_ext SP _ _ _ _ _ _ _ _ He Hs) as Hx.
    assert (Hlt : i < length (p_encs (s_prob s))) by (apply nth_error_Some; congruence).
    apply wp_bind, wp_modify.
    (* adding the clauses one by one gives the problem [p_encoded] *)
    assert (Hadd : forall l (s0 : st), wp (add_clauses l)
              (fun _ s' => s_prob s' = set_cls (rev l ++ p_cls (s_prob s0)) (s_prob s0) /\
                 s_lims s' = s_lims s0 /\ fr s0 s') (fun _ _ => False) s0).
    { intros l. induction l as [|c l IH]; intros s0; unfold add_clauses; cbn [forM].
      - apply wp_ret. split; [|split; [reflexivity|apply fr_refl]]. now destruct (s_prob s0).
      - apply wp_bind, wp_modify. eapply wp_mono; [apply IH| |auto].
        intros [] s' (G1 & G2 & G3). split; [|split].
        + rewrite G1. cbn. now rewrite <- app_assoc.
        + rewrite G2. reflexivity.
        + eapply fr_trans; [|exact G3]. now constructor. }
    eapply wp_mono; [apply Hadd| |intros ? ? []].
    intros [] s' (G1 & G2 & G3). cbn in G1, G2.
    assert (Hp : s_prob s' = p_encoded (s_prob s) i e' cl n') by exact G1.
    eapply (HQ e' s').
    - constructor.
      + unfold lims_ok. rewrite G2. apply HK.
      + rewrite (fr_nobjs _ _ G3), Hp. cbn. apply HK.
      + rewrite Hp. exact HI'.
    - constructor.
      + destruct G3. constructor; try assumption. rewrite Hp. exact Hx.
      + exact (fr_front _ _ G3).
    - exact G2.
    - rewrite Hp. reflexivity.
    - rewrite Hp. cbn. now apply set_nth_same.
    - apply Hs.
    - apply Hs.
    - apply Hs.
    - apply Hs.
  Qed.
End Kern.
