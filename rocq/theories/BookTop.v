(** * Limits, statistics, growth of the front and interrupts over calls and histories *)
From Coq Require Import List Bool Arith Lia ZArith.
From Verif Require Import Base BaseLemmas Spec MTypes MKernel MPMinimal MLowerBounding MBiOptSat
  EncSpec Wp Sem Kern Init ApiSpec Ext Blk Struct Book Api Intr LogSpec LogBal ApiTop.
Import ListNotations.

(** The limit behind a termination reason, and the statistic it bounds *)
Definition limit_of (t : termination) (l : limits) : option nat :=
  match t with
  | PPLimit => l_pps l | SolsLimit => l_sols l | CandidatesLimit => l_candidates l
  | OracleCallsLimit => l_oracle_calls l | Interrupted => None
  end.
Definition count_of (t : termination) (x : stats) : nat :=
  match t with
  | PPLimit => n_non_dominated x | SolsLimit => n_solutions x | CandidatesLimit => n_candidates x
  | OracleCallsLimit => n_oracle_calls x | Interrupted => 0
  end.

Lemma limits_solve {I} (SP : enc_spec I) E al l (s : st I) : lims_pos l ->
  let r := alg_solve al E l s in
  (forall t k, limit_of t l = Some k -> count_of t (s_stats (snd r)) <= count_of t (s_stats s) + k) /\
  (forall t, fst r = Exit (ETerm t) -> t <> Interrupted ->
     exists k, limit_of t l = Some k /\ count_of t (s_stats (snd r)) = count_of t (s_stats s) + k) /\
  (fst r = Done tt -> forall t k, limit_of t l = Some k ->
     count_of t (s_stats (snd r)) < count_of t (s_stats s) + k).
Proof.
  intros Hl r. pose proof (wp_run _ _ _ _ (book_solve SP E al l s Hl)) as H. cbv zeta in H.
  fold r in H. destruct r as [[[]|x] s']; cbn [fst snd].
  - destruct H as [(B1 & B2 & B3 & B4) _]. unfold l_below in *. cbn in B1, B2, B3, B4.
    assert (G : forall t k, limit_of t l = Some k -> count_of t (s_stats s') < count_of t (s_stats s) + k).
    { intros [] k Hk; cbn in *; try rewrite Hk in *; try assumption; discriminate. }
    split; [|split; [discriminate|auto]]. intros t k Hk. apply G in Hk. lia.
  - destruct H as ((B1 & B2 & B3 & B4) & R & _). unfold l_within in *. cbn in B1, B2, B3, B4. split; [|split; [|discriminate]].
    + intros [] k Hk; cbn in *; try rewrite Hk in *; try assumption; discriminate.
    + intros t Ht Hn. injection Ht as ->. unfold reason, l_reached in R. cbn in R.
      destruct t; cbn in *; [destruct (l_pps l)|destruct (l_sols l)|destruct (l_candidates l)|destruct (l_oracle_calls l)|congruence];
        try contradiction; eauto.
Qed.

(** Growth in one call *)
Lemma grow_solve {I} (SP : enc_spec I) E al l (s : st I) : lims_pos l ->
  let r := alg_solve al E l s in let s' := snd r in
  s_opts s' = s_opts s /\ n_solve_calls (s_stats s') = S (n_solve_calls (s_stats s)) /\
  exists news k, s_front s' = s_front s ++ news /\
    n_non_dominated (s_stats s') = n_non_dominated (s_stats s) + length news /\
    n_solutions (s_stats s') = n_solutions (s_stats s) + sols_total news + k /\
    (o_enum (s_opts s) = NoEnum -> Forall (fun nd => nd_n_sols nd = 1) news) /\
    (k <> 0 -> fst r <> Done tt /\ fst r <> Exit (ETerm PPLimit) /\ fst r <> Exit (ETerm SolsLimit) /\
       o_enum (s_opts s) <> NoEnum).
Proof.
  intros Hl r s'. pose proof (wp_run _ _ _ _ (book_solve SP E al l s Hl)) as H. cbv zeta in H.
  fold r in H. subst s'. destruct r as [[[]|x] s']; cbn [fst snd].
  - destruct H as [_ [G1 G2 (news & G3 & G4 & G5 & G6)]]. split; [exact G1|]. split; [exact G2|].
    exists news, 0. split; [exact G3|]. split; [exact G4|]. split; [exact G5|]. split; [exact G6|]. congruence.
  - destruct H as (_ & _ & k & [G1 G2 (news & G3 & G4 & G5 & G6)] & Hk). split; [exact G1|]. split; [exact G2|].
    exists news, k. split; [exact G3|]. split; [exact G4|]. split; [exact G5|]. split; [exact G6|].
    intros Hne. destruct (Hk Hne) as [[M1 M2] M3]. split; [discriminate|]. split; [congruence|]. split; [congruence|exact M3].
Qed.

Fixpoint solve_calls (h : list step) : nat :=
  match h with [] => 0 | Solve _ _ :: h' => S (solve_calls h') | _ :: h' => solve_calls h' end.
Definition hist_pos (h : list step) : Prop :=
  Forall (fun x => match x with Solve _ l => lims_pos l | _ => True end) h.

Lemma sols_total_app f g : sols_total (f ++ g) = sols_total f + sols_total g.
Proof. unfold sols_total. now rewrite map_app, list_sum_app. Qed.

Lemma grow_run {I} (SP : enc_spec I) al h : forall s : st I, hist_pos h ->
  let s' := run al h s in
  s_opts s' = s_opts s /\ n_solve_calls (s_stats s') = n_solve_calls (s_stats s) + solve_calls h /\
  exists news k, s_front s' = s_front s ++ news /\
    n_non_dominated (s_stats s') = n_non_dominated (s_stats s) + length news /\
    n_solutions (s_stats s') = n_solutions (s_stats s) + sols_total news + k /\
    (o_enum (s_opts s) = NoEnum -> k = 0 /\ Forall (fun nd => nd_n_sols nd = 1) news).
Proof.
  induction h as [|x h IH]; intros s Hh s'.
  - unfold s'. cbn [run solve_calls]. split; [reflexivity|]. split; [lia|]. exists [], 0. rewrite app_nil_r. cbn. 
    repeat split; try lia; constructor.
  - inversion Hh as [|? ? Hx Hh']; subst. unfold s'. cbn [run]. destruct x as [E l| |]; cbn [run_step].
    + destruct (grow_solve SP E al l s Hx) as (A1 & A2 & news & k & A3 & A4 & A5 & A6 & A7).
      destruct (IH (snd (alg_solve al E l s)) Hh') as (B1 & B2 & news' & k' & B3 & B4 & B5 & B6).
      split; [congruence|]. split; [cbn [solve_calls]; lia|]. exists (news ++ news'), (k + k').
      rewrite app_length, sols_total_app. split; [rewrite B3, A3; now rewrite app_assoc|].
      split; [lia|]. split; [lia|]. intros Hn. rewrite A1 in B6. destruct (B6 Hn) as [-> B7].
      split; [|apply Forall_app; split; [now apply A6|exact B7]].
      destruct (Nat.eq_dec k 0) as [-> |Hk]; [reflexivity|]. destruct (A7 Hk) as (_ & _ & _ & Hc). congruence.
    + exact (IH _ Hh').
    + exact (IH _ Hh').
Qed.

(** ** Interrupts *)
Lemma new_shape {I} (SP : enc_spec I) i o al (s : st I) : inst_ok i -> alg_new al i o = Some s ->
  shape (length (in_objs i)) s /\ (al = ABiOptSat -> length (in_objs i) = 2).
Proof.
  intros HI H. split.
  - pose proof (alg_new_start SP i o HI al s H) as F. split.
    + rewrite (wf_len _ _ _ (inv_wf _ _ _ _ _ (k_inv _ _ _ _ _ (fs_K _ _ _ _ _ _ F)))).
      rewrite (fs_objs _ _ _ _ _ _ F). apply build_length.
    + rewrite (fs_stats _ _ _ _ _ _ F). cbn. apply build_length.
  - intros ->. eapply new_two; eauto.
Qed.
Lemma intr_history {I} (SP : enc_spec I) i o al (s : st I) h E l : inst_ok i -> alg_new al i o = Some s ->
  (forall k, ev_flag E k = true) -> 0 < ev_fuel E ->
  let s1 := run al h s in let r := alg_solve al E l s1 in
  (fst r = Exit (ETerm Interrupted) \/ fst r = Exit (EErr ErrLogger) \/ fst r = Exit (EErr ErrOracle)) /\
  s_front (snd r) = s_front s1 /\ s_calls (snd r) <= S (s_calls s1).
Proof.
  intros HI Hn HF Hfu s1 r. destruct (new_shape SP i o al s HI Hn) as [H1 H2].
  pose proof (shape_run SP _ al h s H1) as H3. fold s1 in H3.
  pose proof (wp_run _ _ _ _ (intr_solve_call SP E s1 (fun k _ => HF k) Hfu al _ l (fun _ _ => False) H3 H2)) as G.
  fold r in G. destruct r as [[u|x] s']; [contradiction|]. cbn [fst snd].
  destruct G as ([-> | [-> | ->]] & G2 & G3); auto.
Qed.

(** ** Routine events over a history *)
Lemma open_app a b : open_routines b = Some 0 -> open_routines (a ++ b) = open_routines a.
Proof. intros H. induction a as [|e a IH]; cbn; [exact H|]. now rewrite IH. Qed.
Lemma open_app_ge a b d : open_routines b = Some d ->
  match open_routines a with
  | Some x => open_routines (a ++ b) = Some (x + d)
  | None => True
  end.
Proof.
  intros H. induction a as [|e a IH]; cbn; [exact H|].
  destruct (open_routines a) as [x|]; [|exact Logic.I]. rewrite IH. destruct e; try reflexivity.
  destruct x; [exact Logic.I|reflexivity].
Qed.
Lemma log_history {I} al h : forall s : st I, open_routines (s_trace s) <> None ->
  open_routines (s_trace (run al h s)) <> None.
Proof.
  induction h as [|x h IH]; intros s Hs; [exact Hs|]. cbn [run]. apply IH. destruct x as [E l| |]; try exact Hs.
  cbn [run_step]. pose proof (wp_run _ _ _ _ (log_solve al E l s)) as H.
  assert (G : exists evs, s_trace (snd (alg_solve al E l s)) = evs ++ s_trace s /\ open_routines evs <> None).
  { destruct (alg_solve al E l s) as [[[]|y] s']; destruct H as (evs & H1 & H2); exists evs; [destruct H2|]; auto. }
  destruct G as (evs & -> & Ho). destruct (open_routines (s_trace s)) as [d|] eqn:e; [|congruence].
  pose proof (open_app_ge evs _ d e) as G. destruct (open_routines evs); [|congruence]. rewrite G. discriminate.
Qed.

(** ** Statements for Prop files *)
Lemma top_C18 I (SP : enc_spec I) i o al (s0 : st I) h : inst_ok i -> alg_new al i o = Some s0 -> hist_pos h ->
  let s := run al h s0 in
  n_solve_calls (s_stats s) = solve_calls h /\
  n_non_dominated (s_stats s) = length (s_front s) /\
  n_solutions (s_stats s) >= list_sum (map (fun p => length (nd_sols p)) (s_front s)) /\
  (o_enum o = NoEnum -> n_solutions (s_stats s) = length (s_front s) /\
     Forall (fun p => length (nd_sols p) = 1) (s_front s)).
Proof.
  intros HI Hn Hh s. pose proof (alg_new_start SP i o HI al s0 Hn) as F.
  destruct (grow_run SP al h s0 Hh) as (H1 & H2 & news & k & H3 & H4 & H5 & H6). fold s in H1, H2, H3, H4, H5.
  rewrite (fs_front _ _ _ _ _ _ F) in H3. cbn in H3. rewrite H3.
  rewrite (fs_stats _ _ _ _ _ _ F) in H2, H4, H5. cbn in H2, H4, H5. unfold sols_total, nd_n_sols in *.
  split; [exact H2|]. split; [exact H4|]. split; [rewrite H5; lia|]. intros He. rewrite (fs_opts _ _ _ _ _ _ F) in H6.
  destruct (H6 He) as [-> H7]. split; [|exact H7]. rewrite H5. clear - H7. rewrite Nat.add_0_r.
  induction H7 as [|p f Hp _ IH]; [reflexivity|]. cbn [map list_sum fold_right length]. rewrite Hp. cbn. f_equal. exact IH.
Qed.
Lemma top_C18_enum I (SP : enc_spec I) E al l (s : st I) : lims_pos l -> let r := alg_solve al E l s in
  fst r = Done tt \/ fst r = Exit (ETerm PPLimit) \/ fst r = Exit (ETerm SolsLimit) ->
  exists news, s_front (snd r) = s_front s ++ news /\
    n_solutions (s_stats (snd r)) = n_solutions (s_stats s) + list_sum (map (fun p => length (nd_sols p)) news).
Proof.
  intros Hl r Hr. destruct (grow_solve SP E al l s Hl) as (_ & _ & news & k & H3 & _ & H5 & _ & H7).
  fold r in H3, H5, H7. exists news. split; [exact H3|]. rewrite H5. unfold sols_total, nd_n_sols.
  destruct (Nat.eq_dec k 0) as [-> |Hk]; [lia|]. destruct (H7 Hk) as (N1 & N2 & N3 & _). tauto.
Qed.
Lemma run_app {I} al h h' : forall s : st I, run al (h ++ h') s = run al h' (run al h s).
Proof. induction h as [|x h IH]; intros s; [reflexivity|]. cbn. apply IH. Qed.
Lemma top_C20 I (SP : enc_spec I) al h h' (s : st I) : hist_pos h' ->
  exists news, s_front (run al (h ++ h') s) = s_front (run al h s) ++ news.
Proof.
  intros Hh. rewrite run_app. destruct (grow_run SP al h' (run al h s) Hh) as (_ & _ & news & _ & H & _). eauto.
Qed.
Lemma top_C43 I al E l (s s' : st I) : al <> ABiOptSat -> alg_solve al E l s = (Done tt, s') ->
  open_routines (s_trace s) <> None -> open_routines (s_trace s') = open_routines (s_trace s).
Proof.
  intros Hal H Ho. pose proof (wp_run _ _ _ _ (log_solve al E l s)) as G. rewrite H in G.
  destruct G as (evs & -> & _ & G). specialize (G Hal). destruct (open_routines (s_trace s)) as [d|] eqn:e; [|congruence].
  pose proof (open_app_ge evs _ d e) as K. rewrite G in K. exact K.
Qed.
Lemma new_trace I (SP : enc_spec I) i o al (s : st I) : inst_ok i -> alg_new al i o = Some s -> s_trace s = [].
Proof. intros HI H. apply (fs_trace _ _ _ _ _ _ (alg_new_start SP i o HI al s H)). Qed.
