(** * BiOptSat does not finish when the first objective's encoding is a positive constant *)
From Coq Require Import List Bool Arith Lia ZArith.
From Verif Require Import Base BaseLemmas Spec MTypes MKernel MBiOptSat MRelease EncSpec ApiSpec Wp Sem Kern
  Yield PMin PMinTop Linsu BiTop Init Struct Book Api.
Import ListNotations.

Lemma bi_solve_debug {I} E l : bi_solve (I := I) E l = bi_solve_r true E l.
Proof. reflexivity. Qed.

Section Stuck.
  Context {I : enc_impl} (SP : enc_spec I).
  Notation st := (st I).
  Variable dbg : bool.
  Variable E : environ.
  Hypothesis HO : oracle_ok E.
  Variable F : asg -> Prop.
  Variables (o0 : objective).
  Notation T := (fun _ : asg => True).
  Hypothesis Hsome : exists a, F a.
  Hypothesis Hpos : forall a, F a -> 0 < icost o0 a.

  (** stopped by the user, an external failure, or still running; with assertions also a panic *)
  Definition stuckX (x : exit) : Prop := good_exit x \/ x = ENoFuel \/ (dbg = true /\ x = EPanic).
  Definition SK (s : st) : Prop := K SP F F T s /\ nth_error (p_objs (s_prob s)) 0 = Some o0 /\
    nth_error (p_encs (s_prob s)) 0 = Some EConstant.

  Lemma SK_keep s s' : SK s -> K SP F F T s' -> keep SP s s' -> SK s'.
  Proof.
    intros (H1 & H2 & H3) HK Hk. split; [exact HK|]. split.
    - rewrite (adv_objs _ _ _ (kp_adv _ _ _ Hk)). exact H2.
    - destruct (ext_encs _ _ _ (ad_ext _ _ _ (kp_adv _ _ _ Hk)) _ _ H3) as (e & G1 & _ & _ & G2).
      rewrite G1. f_equal. now apply G2.
  Qed.
  Lemma SK_quiet s s' : SK s -> quiet s s' -> lims_ok s' -> SK s'.
  Proof. intros H Q L. eapply SK_keep; [exact H| |apply quiet_keep, Q]. eapply K_quiet; eauto. apply H. Qed.
  Lemma SK_solved s s' : SK s -> solved s s' -> lims_ok s' -> SK s'.
  Proof. intros H Q L. eapply SK_keep; [exact H| |apply solved_keep, Q]. eapply K_solved; eauto. apply H. Qed.

  (** without assumptions the oracle cannot answer "unsatisfiable" *)
  Lemma no_core s core : SK s -> (forall l, In l core -> In (lnot l) []) ->
    (forall m, sat m (p_cls (s_prob s)) -> clause_true m core = true) -> False.
  Proof.
    intros (HK & _) H1 H2. destruct Hsome as (a & Ha).
    destruct (inv_comp _ _ _ _ _ (k_inv _ _ _ _ _ HK) a Ha) as (m & _ & Hm & _).
    specialize (H2 m Hm). destruct core as [|l core]; [discriminate|]. exact (H1 l (or_introl eq_refl)).
  Qed.
  Lemma SK_pos s m : SK s -> sat m (p_cls (s_prob s)) -> 0 < icost o0 m.
  Proof. intros (HK & _) Hm. apply Hpos, (inv_sound _ _ _ _ _ (k_inv _ _ _ _ _ HK)), Hm. Qed.

  Lemma stuck_body x s : 0 < fst x -> SK s ->
    wp (linsu_body_r dbg E 0 [] 0 x)
       (fun r s' => match r with inl x' => 0 < fst x' /\ SK s' | inr _ => False end) (fun y _ => stuckX y) s.
  Proof.
    destruct x as [cost sol]. cbn [fst]. intros Hc HS. unfold linsu_body_r.
    assert (Hl : cost <=? 0 = false) by (apply Nat.leb_gt; lia). rewrite Hl.
    apply wp_bind. eapply wp_extend_encoding; [apply HS|apply HS|].
    intros e' s1 K1 Hk1 L1 _ He' _ _ Hce _. pose proof (SK_keep _ _ HS K1 Hk1) as S1.
    assert (e' = EConstant) by now apply Hce. subst e'.
    apply wp_bind. unfold get_enc. apply wp_bind, wp_gets. apply (wp_unwrap _ EConstant); [exact He'|].
    apply wp_bind. eapply wp_unwrap; [reflexivity|]. cbn [app].
    apply wp_bind, wp_k_solve_assumps; [exact HO|apply K1| | |].
    - intros m s2 V2 L2 O2 Hm _. pose proof (SK_solved _ _ S1 V2 L2) as S2. pose proof (proj1 S2) as K2.
      destruct (K_next _ _ _ _ _ K2) as [N1 N2].
      apply wp_bind. eapply wp_oracle_solution; [exact O2|exact N2|].
      set (sol' := sol_of m (vm_next (p_vm (s_prob s2)) - 1)).
      assert (Hrep : sol_rep (vm_max_enc (p_vm (s_prob s2))) m sol') by (eexists; split; [exact N1|reflexivity]).
      apply wp_bind. eapply wp_get_cost; [exact K2|apply S2|exact Hrep|].
      pose proof (SK_pos s1 m S1 Hm) as Hp. assert (Hl2 : icost o0 m <=? 0 = false) by (apply Nat.leb_gt; lia).
      apply wp_bind.
      apply wp_mono with (Q := fun _ s' => s' = s2) (X := fun y _ => stuckX y); [| |auto].
      { destruct dbg eqn:ed; [|now apply wp_ret]. unfold guard. destruct (icost o0 m <? cost).
        - now apply wp_ret.
        - apply wp_throw. right. right. auto. }
      intros _ ? ->. apply wp_bind, wp_gets, wp_bind. rewrite (k_nobjs _ _ _ _ _ K2).
      eapply wp_get_costs; [exact K2|exact Hrep|].
      apply wp_bind, wp_log_candidate; [exact L2| | |intros; left; assumption].
      { rewrite ic_length. symmetry. apply K2. }
      intros s3 Q3 L3. rewrite Hl2. apply wp_ret. split; [exact Hp|]. eapply SK_quiet; eauto.
    - intros core s2 _ _ _ H1 H2. destruct (no_core s1 core S1 H1 H2).
    - intros y s2 _ G. left. exact G.
  Qed.

  Lemma stuck_linsu c sol s : 0 < c -> SK s ->
    wp (linsu_r dbg E 0 [] (Some (c, Some sol)) (Some 0)) (fun _ _ => False) (fun y _ => stuckX y) s.
  Proof.
    intros Hc HS. unfold linsu_r. apply wp_bind, wp_log_start; [apply HS| |intros; left; assumption].
    intros s1 Q1 L1. pose proof (SK_quiet _ _ HS Q1 L1) as S1. apply wp_bind. cbn [linsu_start]. apply wp_ret.
    apply wp_bind.
    assert (G : forall n x s, 0 < fst x -> SK s ->
      wp (loop n (linsu_body_r dbg E 0 [] 0) x) (fun _ _ => False) (fun y _ => stuckX y) s).
    { induction n as [|n IH]; intros x s2 Hx S2; cbn [loop]; [apply wp_throw; right; now left|].
      apply wp_bind. eapply wp_mono; [now apply stuck_body| |auto]. intros [x'|r] s3; [|intros []].
      intros [H1 H2]. now apply IH. }
    eapply wp_mono; [apply G; [exact Hc|exact S1]|intros ? ? []|auto].
  Qed.

  Lemma stuck_bi s : SK s -> length (p_encs (s_prob s)) = 2 ->
    wp (bioptsat_r dbg E []) (fun _ _ => False) (fun y _ => stuckX y) s.
  Proof.
    intros HS Hlen. unfold bioptsat_r. apply wp_bind, wp_log_start; [apply HS| |intros; left; assumption].
    intros s1 Q1 L1. pose proof (SK_quiet _ _ HS Q1 L1) as S1.
    assert (Hp : s_prob s1 = s_prob s) by apply Q1.
    apply wp_bind, wp_gets, wp_bind, wp_guard; [rewrite Hp, Hlen; reflexivity|].
    apply wp_bind. unfold get_enc. apply wp_bind, wp_gets. apply (wp_unwrap _ EConstant); [apply S1|].
    destruct (nth_error (p_encs (s_prob s1)) 1) as [e1|] eqn:e1'.
    2:{ apply nth_error_None in e1'. rewrite Hp in e1'. lia. }
    apply wp_bind. apply wp_bind, wp_gets. apply (wp_unwrap _ e1); [exact e1'|].
    apply wp_bind, wp_k_solve_assumps; [exact HO|apply S1| | |].
    - intros m s2 V2 L2 O2 Hm _. pose proof (SK_solved _ _ S1 V2 L2) as S2. pose proof (proj1 S2) as K2.
      destruct (K_next _ _ _ _ _ K2) as [N1 N2].
      apply wp_bind. eapply wp_oracle_solution; [exact O2|exact N2|].
      set (sol' := sol_of m (vm_next (p_vm (s_prob s2)) - 1)).
      assert (Hrep : sol_rep (vm_max_enc (p_vm (s_prob s2))) m sol') by (eexists; split; [exact N1|reflexivity]).
      apply wp_bind. eapply wp_get_cost; [exact K2|apply S2|exact Hrep|].
      pose proof (SK_pos s1 m S1 Hm) as Hp'.
      destruct (ev_fuel E) as [|n]; cbn [loop]; [apply wp_throw; right; now left|].
      apply wp_bind. unfold bi_body_r at 1. cbn [oe_offset]. apply wp_bind.
      eapply wp_mono; [apply stuck_linsu; [exact Hp'|exact S2]|intros ? ? []|auto].
    - intros core s2 _ _ _ H1 H2. destruct (no_core s1 core S1 H1 H2).
    - intros y s2 _ G. left. exact G.
  Qed.
End Stuck.

Section Top.
  Context {I : enc_impl} (SP : enc_spec I).
  Variables (i : inst) (o : kopts) (s : st I) (dbg : bool) (E : environ) (l : limits).
  Lemma bi_never_done ob : start SP i o s -> oracle_ok E -> lims_pos l ->
    (exists a, feasible (in_cls i) a) -> length (p_encs (s_prob s)) = 2 ->
    nth_error (p_objs (s_prob s)) 0 = Some ob -> nth_error (p_encs (s_prob s)) 0 = Some EConstant ->
    (forall a, feasible (in_cls i) a -> 0 < icost ob a) ->
    match fst (bi_solve_r dbg E l s) with
    | Done _ => False
    | Exit x => stuckX dbg x
    end.
  Proof.
    intros HS HO Hl Hf Hlen Hob He Hpos.
    assert (W : wp (bi_solve_r dbg E l) (fun _ _ => False) (fun y _ => stuckX dbg y) s).
    { unfold bi_solve_r. apply wp_bind, wp_modify.
      eapply (stuck_bi SP dbg E HO (Feas i) ob Hf Hpos).
      - split; [|split; [exact Hob|exact He]]. constructor; [exact Hl| |apply HS]. cbn. apply HS.
      - exact Hlen. }
    unfold wp in W. destruct (bi_solve_r dbg E l s) as [[[]|x] s']; exact W.
  Qed.
End Top.

(** undisturbed, a release build runs on for ever: every fuel is used up *)
Lemma bi_runs_on {I} (SP : enc_spec I) i o (s : st I) E ob : start SP i o s -> oracle_ok E -> calm E ->
  (exists a, feasible (in_cls i) a) -> length (p_encs (s_prob s)) = 2 ->
  nth_error (p_objs (s_prob s)) 0 = Some ob -> nth_error (p_encs (s_prob s)) 0 = Some EConstant ->
  (forall a, feasible (in_cls i) a -> 0 < icost ob a) ->
  fst (bi_solve_r false E lims_none s) = Exit ENoFuel.
Proof.
  intros HS HO HC Hf Hlen Hob He Hpos.
  pose proof (bi_never_done SP i o s false E lims_none ob HS HO ltac:(repeat split; discriminate) Hf Hlen Hob He Hpos) as G.
  assert (W : wp (bi_solve_r false E lims_none) (fun _ _ => True) calmX s).
  { unfold bi_solve_r. apply wp_bind, wp_modify.
    eapply wp_mono; [apply (k_bi_main E calmP (fun _ => True) calmX (calm_struct SP E HC) false); reflexivity|auto|auto]. }
  unfold wp in W. destruct (bi_solve_r false E lims_none s) as [[u|x] s']; cbn [fst] in *; [destruct G|].
  unfold stuckX in G. unfold calmX, nd_fail in W.
  destruct x as [t|[]| |]; cbn in *; try contradiction; destruct G as [G|[G|[G _]]]; try contradiction; try discriminate; reflexivity.
Qed.
