(** * C89 without restriction on shared literals

    PropTightAlg.v reduces runs with tightening to runs without; for P-minimal and LowerBounding this
    needs that no literal occurs in two objectives, because otherwise the costs that tightening
    returns may belong to no solution (C84, [C89_candidate_refuted]).  The results are right all the
    same: every component of such costs is attained under the clauses and assumptions of the query,
    and minimization only ends when nothing dominates them, which forces them to be the costs of the
    last solution. *)
From Coq Require Import List Bool Arith Lia ZArith.
From Verif Require Import Base Spec MTypes MKernel MPMinimal MLowerBounding MBiOptSat MOll EncSpec
  TotSpec ApiSpec CbSpec Inst ExInst Wp Sem Kern Init Api ApiTop Book TotInst CbTop CbApi CbHist CbStop PropFront PropCore
  MTight InproSpec TightSpec MTightAlg TightAlgSpec TightSim TightStaleApi PropTightAlg PropTightCb.
From Verif Require PropCbStop PropTight.
Import ListNotations.

Lemma bi_or (al : alg) : al = ABiOptSat \/ al <> ABiOptSat.
Proof. destruct al; [right|right|left]; congruence. Qed.
Lemma new_bound {I} (SP : enc_spec I) i o al (s : st I) : inst_ok i -> alg_new al i o = Some s -> bound SP i s <= iter_bound i.
Proof. intros HI Hs. rewrite (bound_eq SP i o s (new_fresh SP i o HI al s Hs)). apply Nat.le_refl. Qed.

Theorem C89_shared_sound : forall I (SP : enc_spec I) i o al E F w l r (s' : st I),
  inst_ok i -> enum_ok i o -> plain_objs i -> oracle_ok E -> flipper_ok (in_objs i) F -> lims_pos l ->
  first_tight al i o E F w l = Some (r, s') -> sound_front i (s_front s').
Proof.
  intros I SP i o al E F w l r s' HI HU HO HE HF Hl H. destruct (bi_or al) as [->|Ha].
  - apply (C89_sound I SP i o ABiOptSat E F w l r s'); auto. congruence.
  - unfold first_tight in H. destruct (alg_new al i o) as [s|] eqn:e; [|discriminate]. injection H as H.
    pose proof (ttop_sound SP i o HI HO HU al s Ha (new_start SP i o HI al s e) (new_bound SP i o al s HI e) E F w l HE HF Hl) as G.
    now rewrite H in G.
Qed.
Print Assumptions C89_shared_sound.

Theorem C89_shared_complete : forall I (SP : enc_spec I) i o al E F w l (s' : st I),
  inst_ok i -> enum_ok i o -> plain_objs i -> oracle_ok E -> flipper_ok (in_objs i) F -> lims_pos l ->
  first_tight al i o E F w l = Some (Done tt, s') ->
  exact_front i (s_front s') /\ sound_front i (s_front s').
Proof.
  intros I SP i o al E F w l s' HI HU HO HE HF Hl H. destruct (bi_or al) as [->|Ha].
  - apply (C89_complete I SP i o ABiOptSat E F w l s'); auto. congruence.
  - unfold first_tight in H. destruct (alg_new al i o) as [s|] eqn:e; [|discriminate]. injection H as H.
    exact (ttop_done SP i o HI HO HU al s Ha (new_start SP i o HI al s e) (new_bound SP i o al s HI e) E F w l s' HE HF Hl H).
Qed.
Print Assumptions C89_shared_complete.

(** ... and with the enumeration of all solutions, exactly these are reported for every point *)
Theorem C89_shared_enumeration : forall I (SP : enc_spec I) i o al E F w l (s' : st I),
  inst_ok i -> enum_ok i o -> plain_objs i -> oracle_ok E -> flipper_ok (in_objs i) F -> lims_pos l ->
  first_tight al i o E F w l = Some (Done tt, s') -> o_enum o = Solutions None ->
  forall nd, In nd (s_front s') -> NoDup (nd_sols nd) /\
    forall sol, In sol (nd_sols nd) <-> valid_solution (in_cls i) (in_objs i) (n_orig i) (nd_costs nd) sol.
Proof.
  intros I SP i o al E F w l s' HI HU HO HE HF Hl H. unfold first_tight in H.
  destruct (alg_new al i o) as [s|] eqn:e; [|discriminate]. injection H as H. destruct (bi_or al) as [->|Ha].
  - destruct (C89_refines I E F w i o ABiOptSat [] l s s HO ltac:(congruence) e ltac:(constructor) eq_refl HE HF) as (E' & H1 & _ & H2).
    rewrite H2 in H. exact (top_enum_all SP i o HI HU ABiOptSat s e E' l s' H1 Hl H).
  - exact (ttop_enum_all SP i o HI HO HU al s Ha (new_start SP i o HI al s e) (new_bound SP i o al s HI e) E F w l s' HE HF Hl H).
Qed.
Print Assumptions C89_shared_enumeration.

Theorem C89_shared_history : forall I (SP : enc_spec I) i o al h (s : st I),
  inst_ok i -> o_enum o = NoEnum -> plain_objs i -> alg_new al i o = Some s -> run_t_ok (in_objs i) h ->
  Forall (sound_point i) (s_front (run_t al h s)) /\
  (al <> ABiOptSat -> sound_front i (s_front (run_t al h s))).
Proof.
  intros I SP i o al h s HI HU HO Hs Hh. destruct (bi_or al) as [->|Ha].
  - apply (C89_sound_history I SP i o ABiOptSat h s); auto. congruence.
  - pose proof (ttop_history SP i o HI HO HU al s Ha (new_start SP i o HI al s Hs) h Hh) as G. split; [apply G|intros _; exact G].
Qed.
Print Assumptions C89_shared_history.

(** After a finished run no later call changes the front *)
Theorem C89_shared_again : forall I (SP : enc_spec I) i o al E F w l (s1 : st I) h,
  inst_ok i -> enum_ok i o -> plain_objs i -> al <> ABiOptSat -> oracle_ok E -> flipper_ok (in_objs i) F -> lims_pos l ->
  first_tight al i o E F w l = Some (Done tt, s1) -> run_t_ok (in_objs i) h ->
  s_front (run_t al h s1) = s_front s1.
Proof.
  intros I SP i o al E F w l s1 h HI HU HO Ha HE HF Hl H Hh. unfold first_tight in H.
  destruct (alg_new al i o) as [s|] eqn:e; [|discriminate]. injection H as H.
  exact (ttop_again SP i o HI HO HU al s Ha (new_start SP i o HI al s e) E F w l s1 h HE HF Hl H Hh).
Qed.
Print Assumptions C89_shared_again.

Theorem C89_shared_no_panic : forall I (SP : enc_spec I) i o al h E F w l (s : st I),
  inst_ok i -> o_enum o = NoEnum -> plain_objs i -> alg_new al i o = Some s -> run_t_ok (in_objs i) h ->
  oracle_ok E -> flipper_ok (in_objs i) F -> lims_pos l ->
  proper_exit i E (fst (tight_solve E F w al l (run_t al h s))) /\
  fst (tight_solve E F w al l (run_t al h s)) <> Exit EPanic.
Proof.
  intros I SP i o al h E F w l s HI HU HO Hs Hh HE HF Hl.
  assert (G : proper_exit i E (fst (tight_solve E F w al l (run_t al h s)))).
  { destruct (bi_or al) as [->|Ha].
    - destruct (C89_refines I E F w i o ABiOptSat h l s _ HO ltac:(congruence) Hs Hh eq_refl HE HF) as (E' & H1 & (H2 & H3 & H4 & H5) & ->).
      destruct (C89_histories I i o ABiOptSat h s HO ltac:(congruence) Hs Hh) as (h' & G1 & _ & ->).
      pose proof (top_no_panic_history I SP i o ABiOptSat h' E' l s HI HU Hs G1 H1 Hl) as G.
      unfold proper_exit in *. destruct (fst _) as [|x]; [exact Logic.I|]. rewrite H4 in G. exact G.
    - exact (ttop_exits SP i o HI HO HU al s Ha (new_start SP i o HI al s Hs) h E F w l (new_bound SP i o al s HI Hs) Hh HE HF Hl). }
  split; [exact G|]. intros e. rewrite e in G. exact G.
Qed.
Print Assumptions C89_shared_no_panic.

Theorem C89_shared_terminates : forall I (SP : enc_spec I) i o al E F w,
  inst_ok i -> (al = ABiOptSat -> length (in_objs i) = 2) -> enum_ok i o -> plain_objs i ->
  oracle_ok E -> flipper_ok (in_objs i) F -> calm E -> iter_bound i < ev_fuel E ->
  exists s', first_tight (I := I) al i o E F w lims_none = Some (Done tt, s').
Proof.
  intros I SP i o al E F w HI H2 HU HO HE HF Hc Hb. destruct (bi_or al) as [->|Ha].
  - apply (C89_terminates I SP i o ABiOptSat E F w); auto. congruence.
  - destruct (alg_new_some SP i o HI al H2) as (s & e). unfold first_tight. rewrite e.
    destruct (ttop_term SP i o HI HO HU al s Ha (new_start SP i o HI al s e) (new_bound SP i o al s HI e) E F w HE HF Hc Hb) as (s' & H).
    exists s'. now rewrite H.
Qed.
Print Assumptions C89_shared_terminates.

(** ** After core boosting ([tries]: any number of attempts, completed or stopped) *)
Theorem C89_shared_boosted_first : forall I (SP : enc_spec I) T (TS : tot_spec SP T) i o al s0 bs E F w l r s',
  inst_ok i -> lits_distinct i -> enum_ok i o -> alg_new (I := I) al i o = Some s0 ->
  boosts_ok o bs -> resets_ok T o bs s0 -> no_empty_core i o -> (al = ABiOptSat -> no_fixed_cost i) ->
  plain_objs i -> oracle_ok E -> flipper_ok (in_objs i) F -> lims_pos l ->
  tight_solve E F w al l (tries T bs s0) = (r, s') ->
  sound_front i (s_front s') /\ (r = Done tt -> exact_front i (s_front s')).
Proof.
  intros I SP T TS i o al s0 bs E F w l r s' HI HD HE Hn Hb Hr Hd Hf HO HOE HF Hl Hs. destruct (bi_or al) as [->|Ha].
  - apply (C89_boosted_first I SP T TS i o ABiOptSat s0 bs E F w l r s'); auto. congruence.
  - pose proof (ct_start TS i o HI HD al s0 bs Hn Hb Hr Hd) as S0.
    pose proof (held_bound i o _ (ct_held TS i o HI HD al s0 bs Hn Hb Hr Hd)) as B0.
    split.
    + pose proof (ttop_sound SP i o HI HO HE al _ Ha S0 B0 E F w l HOE HF Hl) as G. rewrite Hs in G. exact G.
    + intros ->. apply (ttop_done SP i o HI HO HE al _ Ha S0 B0 E F w l s' HOE HF Hl Hs).
Qed.
Print Assumptions C89_shared_boosted_first.

Theorem C89_shared_boosted_terminates : forall I (SP : enc_spec I) T (TS : tot_spec SP T) i o al s0 bs E F w,
  inst_ok i -> lits_distinct i -> enum_ok i o -> alg_new (I := I) al i o = Some s0 ->
  boosts_ok o bs -> resets_ok T o bs s0 -> no_empty_core i o -> (al = ABiOptSat -> no_fixed_cost i) ->
  plain_objs i -> oracle_ok E -> flipper_ok (in_objs i) F -> calm E -> iter_bound i < ev_fuel E ->
  exists s', tight_solve E F w al lims_none (tries T bs s0) = (Done tt, s').
Proof.
  intros I SP T TS i o al s0 bs E F w HI HD HE Hn Hb Hr Hd Hf HO HOE HF HC Hu. destruct (bi_or al) as [->|Ha].
  - apply (C89_boosted_terminates I SP T TS i o ABiOptSat s0 bs E F w); auto. congruence.
  - pose proof (ct_start TS i o HI HD al s0 bs Hn Hb Hr Hd) as S0.
    pose proof (held_bound i o _ (ct_held TS i o HI HD al s0 bs Hn Hb Hr Hd)) as B0.
    exact (ttop_term SP i o HI HO HE al _ Ha S0 B0 E F w HOE HF HC Hu).
Qed.
Print Assumptions C89_shared_boosted_terminates.

Theorem C89_shared_boosted_histories : forall I (SP : enc_spec I) T (TS : tot_spec SP T) i o al s0 bs h,
  inst_ok i -> lits_distinct i -> al <> ABiOptSat -> o_enum o = NoEnum -> alg_new (I := I) al i o = Some s0 ->
  boosts_ok o bs -> resets_ok T o bs s0 -> no_empty_core i o -> plain_objs i -> run_t_ok (in_objs i) h ->
  sound_front i (s_front (run_t al h (tries T bs s0))).
Proof.
  intros I SP T TS i o al s0 bs h HI HD Ha Hen Hn Hb Hr Hd HO Hh.
  exact (ttop_history SP i o HI HO Hen al _ Ha (ct_start TS i o HI HD al s0 bs Hn Hb Hr Hd) h Hh).
Qed.
Print Assumptions C89_shared_boosted_histories.

(** ** Example: x3 in both objectives, and flippable in the first only after x4 has been flipped in
    the second, so that the costs of the first candidate are stale *)
Definition sh_inst : inst := mkInst [[pos 0; pos 1]; [pos 1; pos 2]; [pos 3; neg 4]]
  [([(pos 0, 1); (pos 2, 2); (pos 3, 1)], 0%Z); ([(pos 4, 1); (pos 1, 3); (pos 3, 1)], 1%Z)] (mkVm 6 5 5).
Example sh_ok : inst_ok sh_inst /\ plain_objs sh_inst /\ ~ not_shared (in_objs sh_inst).
Proof.
  split; [|split].
  - constructor.
    + cbn. lia.
    + cbn. lia.
    + intros v H. cbn in *. lia.
    + intros r v [<-|[<-|[]]] H; cbn in *; lia.
    + constructor; [|constructor; [|constructor]].
      * split; [left; repeat constructor; cbn; intuition discriminate|]. right. exists (pos 0, 1). split; [now left|discriminate].
      * split; [left; repeat constructor; cbn; intuition discriminate|]. right. exists (pos 4, 1). split; [now left|discriminate].
    + repeat constructor; cbn; unfold isize_max, isize_min; lia.
  - split.
    + intros r lw [<-|[<-|[]]] H; cbn in H; intuition (subst; cbn; lia).
    + intros r [<-|[<-|[]]]; repeat constructor; cbn; intuition discriminate.
  - intros H. assert (X : 0 = 1); [|discriminate].
    eapply (H 0 1 _ _ (pos 3) 1 1); [reflexivity|reflexivity|cbn; tauto|cbn; tauto].
Qed.
(** exit, front with the number of solutions per point, candidates (latest first); no solution has the
    internal costs (4, 0) *)
Definition sh_run (al : alg) (w : heur_when) e :=
  match alg_new (I := CI) al sh_inst (ex_opts e) with
  | Some s => let '(r, s') := tight_solve ex_env ex_flip w al lims_none (snd (attach_logger s)) in
      Some (r, map (fun nd => (nd_costs nd, length (nd_sols nd))) (s_front s'),
        flat_map (fun ev => match ev with EvCandidate cs _ => [cs] | _ => [] end) (s_trace s'))
  | None => None
  end.
Example sh_stale : forall b, feasible (in_cls sh_inst) b -> costs (in_objs sh_inst) b <> user_costs (in_objs sh_inst) [4; 0].
Proof. intros b Hb E. vm_compute in E. destruct (b 0), (b 1), (b 2), (b 3), (b 4); discriminate. Qed.
Example C89_shared_example_pminimal : sh_run APMinimal HAlways NoEnum = Some (Done tt, [([0; 4]%Z, 1); ([3; 1]%Z, 1)], [[3; 0]; [4; 0]; [0; 3]; [1; 3]]).
Proof. vm_compute. reflexivity. Qed.
Example C89_shared_example_lower : sh_run ALowerBounding HOuterLoop NoEnum = Some (Done tt, [([0; 4]%Z, 1); ([3; 1]%Z, 1)], [[3; 0]; [0; 3]]).
Proof. vm_compute. reflexivity. Qed.
Example C89_shared_example_enum : sh_run APMinimal HAlways (Solutions None) = Some (Done tt, [([0; 4]%Z, 2); ([3; 1]%Z, 2)], [[3; 0]; [4; 0]; [0; 3]; [1; 3]]).
Proof. vm_compute. reflexivity. Qed.

Definition sh_hist : list tstep := [TAttach; TSolve ex_env ex_flip HAlways ex_lims; TDetach; TSolve ex_env' ex_flip HOuterLoop lims_none].
Example sh_hist_ok : run_t_ok (in_objs sh_inst) sh_hist.
Proof.
  repeat constructor; try apply brute_ok; try apply ex_flip_ok; try (cbn; lia); try discriminate.
Qed.
Example C89_shared_meets : inst_ok sh_inst /\ lits_distinct sh_inst /\ plain_objs sh_inst /\
  boosts_ok tb_opts (tb_bs 3 9) /\ (forall s : st GI, resets_ok TI tb_opts (tb_bs 3 9) s) /\ no_empty_core sh_inst tb_opts /\
  enum_ok sh_inst tb_opts /\ no_fixed_cost sh_inst.
Proof.
  destruct sh_ok as (A & B & _). split; [exact A|]. split; [exact (proj2 B)|]. split; [exact B|].
  split; [apply PropCbStop.st_ok; reflexivity|]. split; [intros s; apply PropCbStop.st_plain|].
  split; [left; exists (fun _ => true); intros c [<-|[<-|[<-|[]]]]; reflexivity|].
  split; [now apply enum_none|]. intros r [<-|[<-|[]]] H; exfalso;
    specialize (H (fun v => v =? 1) (fun _ => true)
      ltac:(intros c [<-|[<-|[<-|[]]]]; reflexivity) ltac:(intros c [<-|[<-|[<-|[]]]]; reflexivity)); vm_compute in H; discriminate.
Qed.
Definition sh_boosted al w n m :=
  match alg_new (I := GI) al sh_inst tb_opts with
  | Some s => let '(r, s2) := tight_solve ex_env ex_flip w al lims_none (tries TI (tb_bs n m) s) in
      Some (PropCbStop.outs (tb_bs n m) s, r, map nd_costs (s_front s2))
  | None => None
  end.
Example C89_shared_boosted_example : sh_boosted APMinimal HAlways 3 99 = Some ([Exit (EErr ErrLogger); Done true], Done tt, [[0; 4]; [3; 1]]%Z).
Proof. vm_compute. reflexivity. Qed.
