(** * C89: solving with solution tightening

    [tight_solve] (MTightAlg.v) is [solve] with the feature [sol-tightening]: solutions that the
    oracle found are tightened by flipping objective literals before they are used.  [flipper_ok]
    (TightAlgSpec.v) is what is assumed about flips. *)
From Coq Require Import List Bool Arith Lia ZArith.
From Verif Require Import Base BaseLemmas Spec MTypes MKernel MPMinimal MLowerBounding MBiOptSat EncSpec Inst ApiSpec Book ExInst CbSpec
  MTight InproSpec TightSpec MTightAlg TightAlgSpec TightRun TightSim ApiTop PropFront.
From Verif Require PropTight.
Import ListNotations.

(** ** Refinement

    A call with tightening does, step by step, what the call without tightening does for some other
    correct oracle: same result, same state afterwards.  With P-minimal and LowerBounding no literal
    may be in two objectives (C84: the cost vector can be stale then). *)
Theorem C89_refines : forall I E F w i o al h l (s0 s : st I),
  plain_objs i -> (al <> ABiOptSat -> not_shared (in_objs i)) -> alg_new al i o = Some s0 ->
  run_t_ok (in_objs i) h -> s = run_t al h s0 -> oracle_ok E -> flipper_ok (in_objs i) F ->
  exists E', oracle_ok E' /\ same_but_oracle E E' /\ tight_solve E F w al l s = alg_solve al E' l s.
Proof.
  intros I E F w i o al h l s0 s HO HN Hnew Hh -> HE HF.
  assert (HP : objs_kept i (run_t al h s0)).
  { apply new_kept in Hnew. revert s0 Hnew. induction Hh as [|x h Hx Hh IH]; intros s0 Hs; [exact Hs|]. cbn [run_t]. apply IH.
    destruct x as [E1 F1 w1 l1| |]; cbn [run_tstep]; [|exact Hs|exact Hs]. destruct Hx as (X1 & X2 & _).
    destruct (tight_run E1 F1 w1 i al l1 s0 X1 X2 HO HN Hs) as (E' & _ & _ & _ & H). exact H. }
  destruct (tight_run E F w i al l _ HE HF HO HN HP) as (E' & H1 & H2 & H3 & _). eauto.
Qed.
Print Assumptions C89_refines.

(** so a history of calls with tightening is a history of calls without *)
Theorem C89_histories : forall I i o al h (s : st I),
  plain_objs i -> (al <> ABiOptSat -> not_shared (in_objs i)) -> alg_new al i o = Some s ->
  run_t_ok (in_objs i) h ->
  exists h', run_ok h' /\ Forall2 same_step h h' /\ run_t al h s = run al h' s.
Proof.
  intros I i o al h s HO HN Hnew. apply new_kept in Hnew. revert s Hnew.
  induction h as [|x h IH]; intros s Hs Hh.
  { exists []. split; [constructor|]. split; [constructor|reflexivity]. }
  inversion Hh as [|y k Hx Hh']; subst. destruct x as [E1 F1 w1 l1| |]; cbn [run_t run_tstep].
  - destruct Hx as (X1 & X2 & X3). destruct (tight_run E1 F1 w1 i al l1 s X1 X2 HO HN Hs) as (E' & H1 & H2 & H3 & H4).
    destruct (IH _ H4 Hh') as (h' & G1 & G2 & G3). exists (Solve E' l1 :: h'). split; [constructor; [split; assumption|exact G1]|].
    split; [constructor; [constructor; exact H2|exact G2]|]. cbn [run run_step]. rewrite <- H3. exact G3.
  - destruct (IH (snd (attach_logger s)) Hs Hh') as (h' & G1 & G2 & G3). exists (Attach :: h'). split; [constructor; [exact Logic.I|exact G1]|].
    split; [constructor; [constructor|exact G2]|]. exact G3.
  - destruct (IH (snd (detach_logger s)) Hs Hh') as (h' & G1 & G2 & G3). exists (Detach :: h'). split; [constructor; [exact Logic.I|exact G1]|].
    split; [constructor; [constructor|exact G2]|]. exact G3.
Qed.
Print Assumptions C89_histories.

Lemma first_plain I i o al E F w l (x : res unit * st I) :
  plain_objs i -> (al <> ABiOptSat -> not_shared (in_objs i)) -> oracle_ok E -> flipper_ok (in_objs i) F ->
  first_tight al i o E F w l = Some x ->
  exists E', oracle_ok E' /\ same_but_oracle E E' /\ first_solve al i o E' l = Some x.
Proof.
  intros HO HN HE HF. unfold first_tight, first_solve. destruct (alg_new al i o) as [s|] eqn:e; [|discriminate]. intros H.
  destruct (tight_run E F w i al l s HE HF HO HN (new_kept _ _ _ _ e)) as (E' & H1 & H2 & H3 & _).
  exists E'. split; [exact H1|]. split; [exact H2|]. rewrite <- H3. exact H.
Qed.

(** ** What a user sees *)

(** at every exit of the first call the front is correct *)
Theorem C89_sound : forall I (SP : enc_spec I) i o al E F w l r (s' : st I),
  inst_ok i -> enum_ok i o -> plain_objs i -> (al <> ABiOptSat -> not_shared (in_objs i)) ->
  oracle_ok E -> flipper_ok (in_objs i) F -> lims_pos l ->
  first_tight al i o E F w l = Some (r, s') -> sound_front i (s_front s').
Proof.
  intros I SP i o al E F w l r s' HI HU HO HN HE HF Hl H.
  destruct (first_plain I i o al E F w l _ HO HN HE HF H) as (E' & H1 & _ & H2).
  unfold first_solve in H2. destruct (alg_new al i o) as [s|] eqn:e; [|discriminate]. injection H2 as H2.
  pose proof (top_sound SP i o HI HU al s e E' l H1 Hl) as G. now rewrite H2 in G.
Qed.
Print Assumptions C89_sound.

(** a finished call has exactly the Pareto front *)
Theorem C89_complete : forall I (SP : enc_spec I) i o al E F w l (s' : st I),
  inst_ok i -> enum_ok i o -> plain_objs i -> (al <> ABiOptSat -> not_shared (in_objs i)) ->
  oracle_ok E -> flipper_ok (in_objs i) F -> lims_pos l ->
  first_tight al i o E F w l = Some (Done tt, s') ->
  exact_front i (s_front s') /\ sound_front i (s_front s').
Proof.
  intros I SP i o al E F w l s' HI HU HO HN HE HF Hl H.
  destruct (first_plain I i o al E F w l _ HO HN HE HF H) as (E' & H1 & _ & H2).
  exact (C55_enumeration_same_front I SP i o al E' l s' HI HU H1 Hl H2).
Qed.
Print Assumptions C89_complete.

(** BiOptSat also keeps the order *)
Theorem C89_bioptsat_order : forall I (SP : enc_spec I) i o E F w l (s' : st I),
  inst_ok i -> enum_ok i o -> plain_objs i -> oracle_ok E -> flipper_ok (in_objs i) F -> lims_pos l ->
  first_tight ABiOptSat i o E F w l = Some (Done tt, s') -> strictly_ordered (s_front s').
Proof.
  intros I SP i o E F w l s' HI HU HO HE HF Hl H.
  destruct (first_plain I i o ABiOptSat E F w l _ HO ltac:(congruence) HE HF H) as (E' & H1 & _ & H2).
  exact (proj1 (proj2 (proj2 (top_bi_complete I SP i o E' l s' HI HU H1 Hl H2)))).
Qed.
Print Assumptions C89_bioptsat_order.

(** after any history of calls with tightening, each with its own oracle, flips, option and limits *)
Theorem C89_sound_history : forall I (SP : enc_spec I) i o al h (s : st I),
  inst_ok i -> o_enum o = NoEnum -> plain_objs i -> (al <> ABiOptSat -> not_shared (in_objs i)) ->
  alg_new al i o = Some s -> run_t_ok (in_objs i) h ->
  Forall (sound_point i) (s_front (run_t al h s)) /\
  (al <> ABiOptSat -> sound_front i (s_front (run_t al h s))).
Proof.
  intros I SP i o al h s HI HU HO HN Hs Hh. destruct (C89_histories I i o al h s HO HN Hs Hh) as (h' & G1 & _ & ->).
  assert (D : al = ABiOptSat \/ al <> ABiOptSat) by (destruct al; [right|right|left]; congruence).
  destruct D as [->|D].
  - split; [exact (top_history_bi SP i o HI s h' HU Hs G1)|congruence].
  - pose proof (top_history SP i o HI al s h' D HU Hs G1) as G. split; [apply G|intros _; exact G].
Qed.
Print Assumptions C89_sound_history.

(** and no call in a history panics *)
Theorem C89_no_panic : forall I (SP : enc_spec I) i o al h E F w l (s : st I),
  inst_ok i -> o_enum o = NoEnum -> plain_objs i -> (al <> ABiOptSat -> not_shared (in_objs i)) ->
  alg_new al i o = Some s -> run_t_ok (in_objs i) h -> oracle_ok E -> flipper_ok (in_objs i) F -> lims_pos l ->
  fst (tight_solve E F w al l (run_t al h s)) <> Exit EPanic.
Proof.
  intros I SP i o al h E F w l s HI HU HO HN Hs Hh HE HF Hl.
  destruct (C89_refines I E F w i o al h l s _ HO HN Hs Hh eq_refl HE HF) as (E' & H1 & _ & ->).
  destruct (C89_histories I i o al h s HO HN Hs Hh) as (h' & G1 & _ & ->).
  pose proof (top_no_panic_history I SP i o al h' E' l s HI HU Hs G1 H1 Hl) as G. intros e. rewrite e in G. exact G.
Qed.
Print Assumptions C89_no_panic.

(** an undisturbed call without limits finishes, whatever is flipped *)
Theorem C89_terminates : forall I (SP : enc_spec I) i o al E F w,
  inst_ok i -> (al = ABiOptSat -> length (in_objs i) = 2) -> enum_ok i o ->
  plain_objs i -> (al <> ABiOptSat -> not_shared (in_objs i)) ->
  oracle_ok E -> flipper_ok (in_objs i) F -> calm E -> iter_bound i < ev_fuel E ->
  exists s', first_tight (I := I) al i o E F w lims_none = Some (Done tt, s').
Proof.
  intros I SP i o al E F w HI H2 HU HO HN HE HF (C1 & C2 & C3) Hb.
  unfold first_tight. destruct (alg_new al i o) as [s|] eqn:e.
  - destruct (tight_run E F w i al lims_none s HE HF HO HN (new_kept _ _ _ _ e)) as (E' & G1 & (G2 & G3 & G4 & G5) & G6 & _).
    assert (HC : calm E') by (split; [rewrite G2; exact C1|split; [rewrite G3; exact C2|exact (G5 C3)]]).
    destruct (top_terminates SP i o HI HU al E' H2 G1 HC ltac:(rewrite G4; exact Hb)) as (s' & Hs').
    unfold first_solve in Hs'. rewrite e in Hs'. injection Hs' as Hs'. exists s'. now rewrite G6, Hs'.
  - exfalso. destruct (top_terminates SP i o HI HU al E H2 HE (conj C1 (conj C2 C3)) Hb) as (s' & Hs').
    unfold first_solve in Hs'. rewrite e in Hs'. discriminate.
Qed.
Print Assumptions C89_terminates.

(** ** Switching it off

    With the option "never" P-minimal and LowerBounding do exactly what they do without the
    feature. *)
Theorem C89_never : forall I E F al l (s : st I), al <> ABiOptSat ->
  tight_solve E F HNever al l s = alg_solve al E l s.
Proof.
  intros I E F al l s Ha.
  assert (Lx : forall S A (b b' : S -> M I (S + A)), (forall x s, b x s = b' x s) -> forall n x s, loop n b x s = loop n b' x s).
  { intros S A b b' H. induction n as [|n IH]; intros x s1; [reflexivity|]. cbn [loop]. unfold bind. rewrite H.
    destruct (b' x s1) as [[[y|z]|e] s2]; [apply IH|reflexivity|reflexivity]. }
  assert (Bx : forall A B (c : M I A) (k k' : A -> M I B), (forall a s, k a s = k' a s) -> forall s, bind c k s = bind c k' s).
  { intros A B c k k' H s1. unfold bind. destruct (c s1) as [[a|e] s2]; [apply H|reflexivity]. }
  assert (P1 : forall cs sol base (s : st I), p_minimization_t E F HNever cs sol base s = p_minimization E cs sol base s).
  { intros cs sol base. unfold p_minimization_t, p_minimization. do 3 (apply Bx; intros ?). apply Lx.
    intros [[cs' sol'] sw]. unfold pmin_body_t, pmin_body. do 3 (apply Bx; intros ?). intros s1. reflexivity. }
  assert (P2 : forall base q (s : st I), minimize_and_yield_t E F HNever base q s = minimize_and_yield E base s).
  { intros base q. unfold minimize_and_yield_t, minimize_and_yield. cbn [wanted sol_costs_t]. apply Bx. intros [cs sol].
    do 3 (apply Bx; intros ?). intros s1. unfold bind at 1 3. rewrite P1. reflexivity. }
  assert (P3 : forall base q (r : sres) (s : st I), (match r with RUnsat => log_end E ;;; ret (@inr unit unit tt)
      | _ => check_termination E ;;; minimize_and_yield_t E F HNever base q ;;; ret (inl tt) end) s =
    (match r with RUnsat => log_end E ;;; ret (inr tt) | _ => check_termination E ;;; minimize_and_yield E base ;;; ret (inl tt) end) s).
  { intros base q r s1. assert (G : (check_termination E ;;; minimize_and_yield_t E F HNever base q ;;; ret (@inl unit unit tt)) s1 =
      (check_termination E ;;; minimize_and_yield E base ;;; ret (inl tt)) s1).
    { apply Bx. intros _ s2. unfold bind. now rewrite P2. }
    destruct r; [exact G|reflexivity|exact G]. }
  unfold tight_solve, alg_solve. destruct al; [| |now elim Ha]; unfold pminimal_solve, lb_solve; apply Bx; intros _; clear s.
  - unfold pminimal_main_t, pminimal_main. do 4 (apply Bx; intros ?). apply Lx. intros x s1.
    unfold pminimal_body_t, pminimal_body, this_query. change (bind (gets ?f) ?k s1) with (k (f s1) s1). cbv beta.
    apply Bx. intros r s2. apply P3.
  - unfold lb_main_t, lb_main. do 5 (apply Bx; intros ?). apply Lx. intros x. unfold lb_body_t, lb_body.
    do 2 (apply Bx; intros ?). intros s1. destruct a5; [|reflexivity|reflexivity].
    assert (G : harvest_t E F HNever [] s1 = harvest E [] s1).
    { unfold harvest_t, harvest. revert s1. do 4 (apply Bx; intros ?). apply Lx. intros y. unfold harvest_body_t, harvest_body.
      apply Bx. intros f s1. unfold this_query. change (bind (gets ?f) ?k s1) with (k (f s1) s1). cbv beta.
      apply Bx. intros r s2. apply P3. }
    unfold bind. now rewrite G.
Qed.
Print Assumptions C89_never.

(** With the option "outer loop" the minimization of a point does not tighten; with "always" it does
    (example [C89_example_inner] below). *)
Theorem C89_outer_loop : forall I E F cs sol base (s : st I),
  p_minimization_t E F HOuterLoop cs sol base s = p_minimization E cs sol base s.
Proof.
  intros I E F cs sol base.
  assert (Lx : forall S A (b b' : S -> M I (S + A)), (forall x s, b x s = b' x s) -> forall n x s, loop n b x s = loop n b' x s).
  { intros S A b b' H. induction n as [|n IH]; intros x s1; [reflexivity|]. cbn [loop]. unfold bind. rewrite H.
    destruct (b' x s1) as [[[y|z]|e] s2]; [apply IH|reflexivity|reflexivity]. }
  assert (Bx : forall A B (c : M I A) (k k' : A -> M I B), (forall a s, k a s = k' a s) -> forall s, bind c k s = bind c k' s).
  { intros A B c k k' H s1. unfold bind. destruct (c s1) as [[a|e] s2]; [apply H|reflexivity]. }
  unfold p_minimization_t, p_minimization. do 3 (apply Bx; intros ?). apply Lx.
  intros [[cs' sol'] sw]. unfold pmin_body_t, pmin_body. do 3 (apply Bx; intros ?). intros s1. reflexivity.
Qed.
Print Assumptions C89_outer_loop.

(** ** Examples: an oracle that grants every flip that keeps clauses and assumptions *)
Definition put (a : asg) (l : lit) : asg := fun v => if v =? lvar l then negb (lneg l) else a v.
Definition query_cls (q : query) : list clause := q_cls q ++ map (fun l => [l]) (q_assumps q).
Definition ex_flip : flipper := mkFlipper
  (fun q => mkFlip asg (fun a => a) (fun a l => if forallb (clause_true (put a l)) (query_cls q) then (put a l, true) else (a, false)))
  (fun q m => m).
Lemma ex_flip_ok ros : flipper_ok ros ex_flip.
Proof.
  split; [|reflexivity]. intros q t l t' b Hs E. cbn [ex_flip fl_oracle ora_flip ora_model ora_st] in *.
  destruct (forallb (clause_true (put t l)) (query_cls q)) eqn:e; injection E as <- <-.
  - split; [|split].
    + rewrite forallb_forall in e. exact e.
    + unfold lit_true, put. rewrite Nat.eqb_refl. now destruct (lneg l).
    + intros r x w _ _ Hne. unfold put. apply Nat.eqb_neq in Hne. now rewrite Hne.
  - reflexivity.
Qed.
(** x0, x1, x2 with x0|x1, x1|x2; objectives x0 + 2 x2 and x1, and a literal ~x3 in the first *)
Definition tx_inst : inst := mkInst [[pos 0; pos 1]; [pos 1; pos 2]]
  [([(pos 0, 1); (pos 2, 2); (neg 3, 1)], 0%Z); ([(pos 1, 3)], 1%Z)] (mkVm 4 3 3).
Lemma tx_ok : inst_ok tx_inst /\ plain_objs tx_inst /\ not_shared (in_objs tx_inst).
Proof.
  split; [|split].
  - constructor.
    + cbn. lia.
    + cbn. lia.
    + intros v H. cbn in *. lia.
    + intros r v [<-|[<-|[]]] H; cbn in *; lia.
    + constructor; [|constructor; [|constructor]].
      * split; [left; repeat constructor; cbn; intuition discriminate|]. right. exists (pos 0, 1). split; [now left|discriminate].
      * split; [left; repeat constructor; cbn; intuition discriminate|]. right. exists (pos 1, 3). split; [now left|discriminate].
    + repeat constructor; cbn; unfold isize_max, isize_min; lia.
  - split.
    + intros r lw [<-|[<-|[]]] H; cbn in H; intuition (subst; cbn; lia).
    + intros r [<-|[<-|[]]]; repeat constructor; cbn; intuition discriminate.
  - intros j k r1 r2 l w1 w2 H1 H2 G1 G2.
    destruct j as [|[|[|j]]]; try discriminate; destruct k as [|[|[|k]]]; try discriminate; try reflexivity;
      cbn in H1, H2; injection H1 as <-; injection H2 as <-; cbn in G1, G2; exfalso;
      repeat (destruct G1 as [G1|G1]; [injection G1 as <- <-|]); try contradiction; intuition discriminate.
Qed.
Definition tx_view (x : option (res unit * st CI)) : option (res unit * list (list Z) * nat * nat) :=
  option_map (fun y : res unit * st CI => (fst y, map nd_costs (s_front (snd y)), n_oracle_calls (s_stats (snd y)), n_candidates (s_stats (snd y)))) x.
Definition tx_run al w := tx_view (first_tight al tx_inst (ex_opts NoEnum) ex_env ex_flip w lims_none).
Definition tx_plain al := tx_view (first_solve al tx_inst (ex_opts NoEnum) ex_env lims_none).
Example C89_example_pminimal : tx_run APMinimal HOuterLoop = Some (Done tt, [[0; 4]; [3; 1]]%Z, 5, 2).
Proof. vm_compute. reflexivity. Qed.
Example C89_example_always : tx_run APMinimal HAlways = Some (Done tt, [[0; 4]; [3; 1]]%Z, 5, 2).
Proof. vm_compute. reflexivity. Qed.
Example C89_example_off : tx_plain APMinimal = Some (Done tt, [[0; 4]; [3; 1]]%Z, 8, 5).
Proof. vm_compute. reflexivity. Qed.
Example C89_example_lower : tx_run ALowerBounding HOuterLoop = Some (Done tt, [[0; 4]; [3; 1]]%Z, 12, 2).
Proof. vm_compute. reflexivity. Qed.
Example C89_example_bioptsat : tx_run ABiOptSat HNever = Some (Done tt, [[0; 4]; [3; 1]]%Z, 4, 0).
Proof. vm_compute. reflexivity. Qed.
Example C89_example_bioptsat_off : tx_plain ABiOptSat = Some (Done tt, [[0; 4]; [3; 1]]%Z, 7, 3).
Proof. vm_compute. reflexivity. Qed.

(** minimizing from the costs (4, 1) on, without and with tightening *)
Definition tx_min (w : heur_when) :=
  option_map (fun s => let '(r, s') := p_minimization_t (I := CI) ex_env ex_flip w [4; 1] [] [] s in
    (match r with Done (cs, _, _) => Some cs | _ => None end, n_candidates (s_stats s')))
    (alg_new APMinimal tx_inst (ex_opts NoEnum)).
Example C89_example_inner_off : tx_min HOuterLoop = Some (Some [0; 1], 3).
Proof. vm_compute. reflexivity. Qed.
Example C89_example_inner : tx_min HAlways = Some (Some [0; 1], 1).
Proof. vm_compute. reflexivity. Qed.

(** the same history, with and without: a limited call, then one that finishes *)
Definition tx_hist : list tstep := [TAttach; TSolve ex_env ex_flip HOuterLoop ex_lims; TDetach; TSolve ex_env' ex_flip HAlways lims_none].
Example tx_hist_ok : run_t_ok (in_objs tx_inst) tx_hist.
Proof. repeat constructor; try apply brute_ok; try apply (ex_flip_ok (in_objs tx_inst)); try discriminate. Qed.
Example C89_example_history :
  option_map (fun s => map nd_costs (s_front (run_t APMinimal tx_hist s))) (alg_new (I := CI) APMinimal tx_inst (ex_opts NoEnum)) = Some [[0; 4]; [3; 1]]%Z.
Proof. vm_compute. reflexivity. Qed.
Example C89_example_meets : inst_ok tx_inst /\ plain_objs tx_inst /\ not_shared (in_objs tx_inst) /\ length (in_objs tx_inst) = 2 /\
  oracle_ok ex_env /\ flipper_ok (in_objs tx_inst) ex_flip /\ calm ex_env /\ iter_bound tx_inst < ev_fuel ex_env.
Proof.
  destruct tx_ok as (A & B & C). repeat (split; [first [assumption|reflexivity|apply brute_ok|apply ex_flip_ok|apply env_calm]|]).
  vm_compute. lia.
Qed.

(** ** Refuted: BiOptSat does not look at the option

    With "never" it still tightens: its run differs from the one without the feature. *)
Theorem C89_never_bioptsat_refuted : exists i o E F (s : st CI), inst_ok i /\ oracle_ok E /\ flipper_ok (in_objs i) F /\
  alg_new ABiOptSat i o = Some s /\
  n_oracle_calls (s_stats (snd (tight_solve E F HNever ABiOptSat lims_none s))) <>
  n_oracle_calls (s_stats (snd (alg_solve ABiOptSat E lims_none s))).
Proof.
  destruct (alg_new (I := CI) ABiOptSat tx_inst (ex_opts NoEnum)) as [s|] eqn:e; [|vm_compute in e; discriminate].
  exists tx_inst, (ex_opts NoEnum), ex_env, ex_flip, s. split; [apply tx_ok|]. split; [apply brute_ok|]. split; [apply ex_flip_ok|].
  split; [exact e|]. pose proof C89_example_bioptsat as A. pose proof C89_example_bioptsat_off as B.
  unfold tx_run, tx_plain, first_tight, first_solve in A, B. rewrite e in A, B. cbn [tx_view option_map] in A, B.
  injection A as _ _ A _. injection B as _ _ B _. intros X.
  pose proof (eq_trans (eq_sym A) (eq_trans X B)) as Y. discriminate.
Qed.
Print Assumptions C89_never_bioptsat_refuted.

(** ** Refuted: the costs of a logged candidate are those of a solution

    With a literal in two objectives (C84) P-minimal can log a candidate whose costs no solution
    has.  The reported front is right here all the same. *)
Theorem C89_candidate_refuted : exists i o E F (s : st CI), inst_ok i /\ plain_objs i /\ oracle_ok E /\ flipper_ok (in_objs i) F /\
  alg_new APMinimal i o = Some s /\
  exists cs, In (EvCandidate cs PhOuterLoop) (s_trace (run_t APMinimal [TAttach; TSolve E F HOuterLoop lims_none] s)) /\
    (forall b, feasible (in_cls i) b -> costs (in_objs i) b <> user_costs (in_objs i) cs) /\
    map nd_costs (s_front (run_t APMinimal [TAttach; TSolve E F HOuterLoop lims_none] s)) = [[0; 0]]%Z.
Proof.
  destruct (alg_new (I := CI) APMinimal PropTight.st_i (ex_opts NoEnum)) as [s|] eqn:e; [|vm_compute in e; discriminate].
  exists PropTight.st_i, (ex_opts NoEnum), ex_env, ex_flip, s. destruct PropTight.st_ok as (H1 & H2 & H3).
  split; [exact H1|]. split; [split; assumption|]. split; [apply brute_ok|]. split; [apply ex_flip_ok|]. split; [exact e|].
  exists [1; 0]. vm_compute in e. injection e as <-. split; [|split].
  - vm_compute. tauto.
  - intros b Hb E. vm_compute in E. destruct (b 0), (b 1); discriminate.
  - vm_compute. reflexivity.
Qed.
Print Assumptions C89_candidate_refuted.
