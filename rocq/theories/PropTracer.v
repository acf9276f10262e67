(** * Properties of the proof tracer *)
From Coq Require Import List Arith ZArith Lia Bool.
From Verif Require Import Base BaseLemmas Spec MTypes MKernel MPMinimal MPrepro EncSpec Sem Kern Init ApiSpec Ext VeriPB VeriThm MProofs ProofThm ProofRun ProofCut ProofCert ProofFin MTracer TracerThm.
Import ListNotations.

(** ** Specification *)
(** the proof constraint [vid] says exactly what clause [c] says *)
Definition is_clause (k : chk) (vid : nat) (c : clause) : Prop :=
  exists C, In (vid, C) (k_all k) /\
    forall a : pv -> bool, lb_holds a C <-> clause_true (on_solver a) c = true.
(** the solver's clause [id] is mapped to a proof constraint that says the same *)
Definition in_proof (k0 : chk) (s : sol_st) (id : nat) (c : clause) : Prop :=
  exists vid, cmap_get (tr_map (so_tr s)) id = Some vid /\ is_clause (kof k0 (so_p s)) vid c.

Lemma clausal_true : forall a C c, nontaut (cl_ax c) -> clausal C (cl_ax c) ->
  (lb_holds a C <-> clause_true (on_solver a) c = true).
Proof.
  intros a C c Hn HC. rewrite (clausal_holds a C (cl_ax c) Hn HC). unfold clause_true. rewrite existsb_exists. split.
  - intros (l & Hl & Ht). apply in_map_iff in Hl. destruct Hl as (x & <- & Hx). exists x. rewrite axiom_true in Ht. tauto.
  - intros (x & Hx & Ht). exists (axiom x). split; [apply in_map; exact Hx|]. rewrite axiom_true. exact Ht.
Qed.
Lemma mirrors_in : forall k0 s id c, nontaut (cl_ax c) -> mirrors (kof k0 (so_p s)) (so_tr s) id c -> in_proof k0 s id c.
Proof.
  intros k0 s id c Hn (vid & C & M1 & M2 & M3). exists vid. split; [exact M1|]. exists C. split; [exact M2|].
  intros a. apply clausal_true; assumption.
Qed.
(** clauses of an instance without repeated or complementary literals *)
Definition proper (c : clause) : Prop := NoDup c /\ forall l, In l c -> ~ In (lnot l) c.
Lemma axiom_inj : forall l m, axiom l = axiom m -> l = m.
Proof. intros [v b] [w d] E. injection E as -> ->. reflexivity. Qed.
Lemma proper_ax : forall c, proper c -> NoDup (cl_ax c) /\ nontaut (cl_ax c).
Proof.
  intros c (Hd & Hn). split.
  - unfold cl_ax. induction Hd as [|x l Hx Hd IH]; [constructor|]. cbn [map]. constructor.
    + intros Hi. apply in_map_iff in Hi. destruct Hi as (y & E & Hy). apply axiom_inj in E. subst y. exact (Hx Hy).
    + apply IH. intros m Hm. intros Hm'. apply (Hn m); right; assumption.
  - intros l H1 H2. apply in_map_iff in H1. destruct H1 as (x & <- & Hx). apply in_map_iff in H2. destruct H2 as (y & E & Hy).
    apply (Hn x Hx). replace (lnot x) with y; [exact Hy|]. apply axiom_inj. rewrite E. destruct x. reflexivity.
Qed.

(** ** C50: ids stay aligned *)
Lemma start_aligned : forall cls objs, aligned (init_chk cls objs) (mkSol [] tr_new (start_proof cls)).
Proof.
  intros cls objs. constructor; cbn [so_cls so_tr so_p].
  - reflexivity.
  - apply init_ids.
  - exact Logic.I.
  - reflexivity.
  - intros [|id] c st H; [discriminate|]. destruct id; discriminate.
  - intros [|id] c H; [discriminate|]. destruct id; discriminate.
Qed.
Lemma number_in : forall {A} (l : list A) n i x, In (i, x) (number n l) <-> exists j, nth_error l j = Some x /\ i = n + j.
Proof.
  intros A l. induction l as [|y l IH]; intros n i x; cbn [number In].
  - split; [tauto|]. intros ([|j] & H & _); discriminate.
  - rewrite IH. split.
    + intros [E|(j & H & ->)]; [injection E as <- <-; exists 0; split; [reflexivity|lia]|exists (S j); split; [exact H|lia]].
    + intros ([|j] & H & ->); [injection H as ->; left; f_equal; lia|right; exists j; split; [exact H|lia]].
Qed.
Lemma load_ok : forall debug cls objs, Forall proper cls ->
  exists s, new_cert debug cls = Some s /\ aligned (init_chk cls objs) s /\ map fst (so_cls s) = cls /\
    Forall (fun x => x = Irr) (map snd (so_cls s)) /\ so_p s = start_proof cls /\ tr_map (so_tr s) = seq 1 (length cls).
Proof.
  intros debug cls objs Hp. unfold new_cert, load_events. set (k0 := init_chk cls objs). set (first := S (length cls)).
  assert (G : forall post pre s, cls = pre ++ post -> aligned k0 s -> map fst (so_cls s) = pre ->
     Forall (fun x => x = Irr) (map snd (so_cls s)) -> so_p s = start_proof cls -> tr_map (so_tr s) = seq 1 (length pre) ->
     exists s', run_events debug first (map (fun ic => EvCert (snd ic) (fst ic)) (number (S (length pre)) post)) s = Some s' /\
       aligned k0 s' /\ map fst (so_cls s') = cls /\ Forall (fun x => x = Irr) (map snd (so_cls s')) /\
       so_p s' = start_proof cls /\ tr_map (so_tr s') = seq 1 (length cls)).
  { intros post. induction post as [|c post IH]; intros pre s Hc A E1 E2 E3 E4.
    - rewrite app_nil_r in Hc. subst pre. exists s. split; [reflexivity|]. tauto.
    - cbn [number map snd fst run_events].
      assert (Hpc : proper c) by (apply (proj1 (Forall_forall _ _) Hp); rewrite Hc; apply in_or_app; right; left; reflexivity).
      destruct (proper_ax c Hpc) as (Hnd & Hnt).
      assert (Hev : ev_ok k0 s (EvCert c (S (length pre)))).
      { cbn [ev_ok]. split; [exact Hnt|]. split.
        - exists (clause_pb c). split; [|apply clausal_clause; assumption].
          rewrite E3. unfold kof. cbn [start_proof ps_log steps_next]. apply in_k_all. left. unfold k0, init_chk. cbn [k_core].
          apply number_in. exists (length pre). split; [|lia]. rewrite Hc, map_app, nth_error_app2 by (rewrite map_length; lia).
          rewrite map_length, Nat.sub_diag. reflexivity.
        - intros j cj Hl. exfalso. destruct j as [|j]; [discriminate|]. cbn [lookup] in Hl. apply nth_error_In in Hl.
          apply (in_map snd) in Hl. cbn [snd] in Hl. pose proof (proj1 (Forall_forall _ _) E2 _ Hl) as X. discriminate. }
      destruct (event_ok debug first k0 s _ A Hev) as (s1 & R1 & A1). rewrite R1.
      destruct s as [cl t p]. cbn [so_cls so_tr so_p] in *. cbn [run_event] in R1. unfold add_original, cmap_add in R1. cbn [tr_map] in R1.
      destruct (debug && _); [discriminate|]. destruct (cmap_get _ _) as [vid|] eqn:Ev; [|discriminate].
      assert (Hvid : vid = S (length pre)).
      { pose proof (al_len _ _ A) as AL. cbn [so_tr so_cls] in AL. rewrite <- AL in Ev. rewrite cmap_app_new in Ev. injection Ev as <-. reflexivity. }
      assert (Hlt : (first <=? vid) = false).
      { apply Nat.leb_gt. subst vid. unfold first. rewrite Hc, app_length. cbn [length]. lia. }
      rewrite Hlt in R1. injection R1 as <-.
      replace (S (S (length pre))) with (S (length (pre ++ [c]))) by (rewrite app_length; cbn [length]; lia).
      apply (IH (pre ++ [c])).
      + rewrite <- app_assoc. exact Hc.
      + exact A1.
      + cbn [so_cls]. rewrite map_app, E1. reflexivity.
      + cbn [so_cls]. rewrite map_app. apply Forall_app. split; [exact E2|]. constructor; [reflexivity|constructor].
      + exact E3.
      + cbn [so_tr tr_map]. rewrite E4, app_length. cbn [length]. rewrite seq_app. cbn [seq]. reflexivity. }
  apply (G cls [] _ eq_refl (start_aligned cls objs)); [reflexivity|constructor|reflexivity|reflexivity].
Qed.

(** All clauses added through the certifying collector, any interleaving with the events of the SAT
    solver and the lines the algorithms write: the tracer never fails (in debug and in release
    builds), every line of the proof is accepted, and every clause the solver still has is the
    proof constraint its number is mapped to. *)
Theorem C50_ids_stay_aligned : forall debug cls objs s0 es,
  Forall proper cls -> new_cert debug cls = Some s0 ->
  evs_ok debug (S (length cls)) (init_chk cls objs) s0 es ->
  exists s, run_events debug (S (length cls)) es s0 = Some s /\
    length (tr_map (so_tr s)) = length (so_cls s) /\
    steps_valid (init_chk cls objs) (ps_log (so_p s)) /\
    forall id c st, lookup (so_cls s) id = Some (c, st) -> st <> Gone -> in_proof (init_chk cls objs) s id c.
Proof.
  intros debug cls objs s0 es Hp H0 He. destruct (load_ok debug cls objs Hp) as (s0' & E & A & _).
  rewrite H0 in E. injection E as <-.
  destruct (events_ok debug (S (length cls)) (init_chk cls objs) es s0 A He) as (s & R & A').
  exists s. split; [exact R|]. split; [exact (al_len _ _ A')|]. split; [exact (al_valid _ _ A')|].
  intros id c st Hl Hst. destruct (al_live _ _ A' id c st Hl Hst) as (Hn & M). apply mirrors_in; assumption.
Qed.
Print Assumptions C50_ids_stay_aligned.

(** loading the instance: clause [i] of the instance is clause [i] of the solver and of the proof *)
Theorem C50_instance_loaded : forall debug cls objs, Forall proper cls ->
  exists s, new_cert debug cls = Some s /\ map fst (so_cls s) = cls /\
    forall i c, nth_error cls i = Some c ->
      cmap_get (tr_map (so_tr s)) (S i) = Some (S i) /\ is_clause (init_chk cls objs) (S i) c.
Proof.
  intros debug cls objs Hp. destruct (load_ok debug cls objs Hp) as (s & E & A & E1 & E2 & E3 & E4).
  exists s. split; [exact E|]. split; [exact E1|]. intros i c Hi.
  assert (Hl : exists st, lookup (so_cls s) (S i) = Some (c, st) /\ st <> Gone).
  { cbn [lookup]. rewrite <- E1 in Hi. rewrite nth_error_map in Hi. destruct (nth_error (so_cls s) i) as [[c' st]|] eqn:En; [|discriminate].
    injection Hi as <-. exists st. split; [reflexivity|]. apply nth_error_In in En. apply (in_map snd) in En. cbn [snd] in En.
    pose proof (proj1 (Forall_forall _ _) E2 _ En) as X. cbv beta in X. subst st. discriminate. }
  destruct Hl as (st & Hl & Hst). destruct (al_live _ _ A _ _ _ Hl Hst) as (Hn & vid & C & M1 & M2 & M3).
  assert (Hv : cmap_get (tr_map (so_tr s)) (S i) = Some (S i)).
  { rewrite E4. cbn [cmap_get]. rewrite (nth_error_nth' _ 0).
    - rewrite seq_nth; [reflexivity|]. apply nth_error_Some. congruence.
    - rewrite seq_length. apply nth_error_Some. congruence. }
  split; [exact Hv|]. rewrite Hv in M1. injection M1 as <-. exists C. split.
  - rewrite E3 in M2. exact M2.
  - intros a. apply clausal_true; assumption.
Qed.
Print Assumptions C50_instance_loaded.

(** the id of the last core is the id of a constraint that says what the core says *)
Theorem C50_core_id : forall debug first k0 s c ants, aligned k0 s -> ev_ok k0 s (EvCore c ants) ->
  exists s' vid, run_event debug first (EvCore c ants) s = Some s' /\ tr_core (so_tr s') = Some vid /\
    is_clause (kof k0 (so_p s')) vid c.
Proof.
  intros debug first k0 [cls t p] c ants A He. destruct He as (cs & F & Hd). cbn [so_cls] in F.
  destruct (add_derived_ok k0 cls t p true c ants cs _ _ A eq_refl eq_refl F Hd) as (vid & t' & p' & E & -> & _ & Ha).
  cbn [run_event]. unfold add_assumption_clause. rewrite E. eexists. exists vid. split; [reflexivity|]. split; [reflexivity|].
  specialize (Ha None None). cbn [so_p]. destruct (al_live _ _ Ha (S (length cls)) c Red) as (Hn & v & C & M1 & M2 & M3).
  - cbn [lookup so_cls]. rewrite nth_error_app2, Nat.sub_diag by lia. reflexivity.
  - discriminate.
  - cbn [so_tr tr_map so_p] in M1, M2. pose proof (al_len _ _ A) as AL. cbn [so_tr so_cls] in AL. rewrite <- AL, cmap_app_new in M1. injection M1 as <-.
    exists C. split; [exact M2|]. intros a. apply clausal_true; assumption.
Qed.
Print Assumptions C50_core_id.

(** the conclusion the tracer records is a contradiction derived in the proof *)
Theorem C50_conclusion : forall debug first k0 s id st, aligned k0 s -> lookup (so_cls s) id = Some ([], st) -> st <> Gone ->
  exists s' vid C, run_event debug first (EvStatus id) s = Some s' /\ tr_concl (so_tr s') = Some vid /\
    In (vid, C) (k_all (kof k0 (so_p s'))) /\ forall a : pv -> bool, ~ lb_holds a C.
Proof.
  intros debug first k0 s id st A Hl Hst. destruct (al_live _ _ A id [] st Hl Hst) as (Hn & vid & C & M1 & M2 & M3).
  destruct s as [cls t p]. cbn [so_tr so_p] in *. cbn [run_event]. unfold report_status.
  destruct id as [|n]; [discriminate|]. cbn [Nat.ltb Nat.leb]. rewrite M1. eexists. exists vid, C. split; [reflexivity|].
  split; [reflexivity|]. split; [exact M2|]. intros a H. apply (clausal_true a C [] Hn M3) in H. discriminate.
Qed.
Print Assumptions C50_conclusion.

(** one clause that is not added through the certifying collector: the next callback of the solver
    finds no id for it and panics, in debug and in release builds *)
Theorem C50_plain_clause_fails : forall debug first k0 s c, aligned k0 s ->
  run_event debug first (EvPlain c) s = None.
Proof.
  intros debug first k0 [cls t p] c A. pose proof (al_len _ _ A) as AL. cbn [so_tr so_cls] in AL.
  cbn [run_event]. unfold add_original. destruct (debug && _); [reflexivity|].
  cbn [cmap_get]. rewrite <- AL. destruct (nth_error (tr_map t) (length (tr_map t))) eqn:E; [|reflexivity].
  exfalso. assert (X : length (tr_map t) < length (tr_map t)) by (apply nth_error_Some; congruence). lia.
Qed.
Print Assumptions C50_plain_clause_fails.
(** hence enumerating the solutions of a point while writing a proof panics as soon as a second
    solution is looked for *)
Theorem C50_enumeration_with_proof_refuted : forall debug cls objs s0 es s e n c rest,
  Forall proper cls -> new_cert debug cls = Some s0 ->
  evs_ok debug (S (length cls)) (init_chk cls objs) s0 es ->
  run_events debug (S (length cls)) es s0 = Some s ->
  enum_done e n = false ->
  run_events debug (S (length cls)) (enum_block e n c ++ rest) s = None.
Proof.
  intros debug cls objs s0 es s e n c rest Hp H0 He Hr Hn. destruct (load_ok debug cls objs Hp) as (s0' & E & A & _).
  rewrite H0 in E. injection E as <-.
  destruct (events_ok debug (S (length cls)) (init_chk cls objs) es s0 A He) as (s' & R & A').
  rewrite Hr in R. injection R as <-. unfold enum_block. rewrite Hn. cbn [app run_events].
  rewrite (C50_plain_clause_fails debug (S (length cls)) (init_chk cls objs) s c A'). reflexivity.
Qed.
Print Assumptions C50_enumeration_with_proof_refuted.
(** in P-minimal and lower-bounding it panics earlier, with any kind of enumeration and any limit: when the first candidate is blocked *)
Theorem C50_temporary_block_refuted : forall debug cls objs s0 es s e c b nv rest,
  Forall proper cls -> new_cert debug cls = Some s0 ->
  evs_ok debug (S (length cls)) (init_chk cls objs) s0 es ->
  run_events debug (S (length cls)) es s0 = Some s ->
  e <> NoEnum ->
  run_events debug (S (length cls)) (tmp_block e c b nv ++ rest) s = None.
Proof.
  intros debug cls objs s0 es s e c b nv rest Hp H0 He Hr Hn. destruct (load_ok debug cls objs Hp) as (s0' & E & A & _).
  rewrite H0 in E. injection E as <-.
  destruct (events_ok debug (S (length cls)) (init_chk cls objs) es s0 A He) as (s' & R & A').
  rewrite Hr in R. injection R as <-. destruct e as [|l|l]; [contradiction| |]; cbn [tmp_block app run_events];
    rewrite (C50_plain_clause_fails debug (S (length cls)) (init_chk cls objs) s _ A'); reflexivity.
Qed.
Print Assumptions C50_temporary_block_refuted.

(** *** A concrete run: the four clauses over two variables, two lines of the kernel (one of them
    handed to the solver), learned clauses, a core, a deleted clause, the empty clause *)
Definition ex_cls : list clause := [[pos 0; pos 1]; [pos 0; neg 1]; [neg 0; pos 1]; [neg 0; neg 1]].
Definition ex_k := init_chk ex_cls [].
Definition ex_sum (i j : nat) : step := SPol (PSat (PAdd (PC (CAbs i)) (PC (CAbs j)))).
Definition ex_events : list event :=
  [EvLine (ex_sum 1 3) 0; EvLine (ex_sum 1 2) 0; EvCert [pos 0] 6; EvLearn true [pos 1] [3; 5];
   EvCore [neg 1] [4; 5]; EvStrengthen 7; EvLearn false [] [6; 7]; EvDelete 6 true; EvStatus 8].
Definition ex_final : option (list (option nat) * option nat * option nat * list step) :=
  match new_cert true ex_cls with
  | None => None
  | Some s => match run_events true 5 ex_events s with
    | None => None
    | Some s => Some (map (cmap_get (tr_map (so_tr s))) [1;2;3;4;5;6;7;8;9], tr_core (so_tr s), tr_concl (so_tr s), ps_log (so_p s))
    end
  end.
Example C50_run : ex_final =
  Some ([Some 1; Some 2; Some 3; Some 4; Some 6; Some 7; Some 8; Some 9; None], Some 8, Some 9,
    [ex_sum 1 3; ex_sum 1 2; SCore [CAbs 6]; ex_sum 6 3; ex_sum 6 4; SCore [CAbs 8]; ex_sum 8 7; SCore [CAbs 9]; SDel [CAbs 7] []]).
Proof. vm_compute. reflexivity. Qed.
Lemma ex_proper : Forall proper ex_cls.
Proof.
  repeat constructor; cbn; try (intuition discriminate); intros l H; intuition (subst; try discriminate).
Qed.
Lemma ex_ax : forall c, In c ex_cls -> NoDup (cl_ax c) /\ nontaut (cl_ax c).
Proof. intros c Hc. apply proper_ax. exact (proj1 (Forall_forall _ _) ex_proper c Hc). Qed.
Ltac res_tac l := exists l; split; [cbn; tauto|]; split; [cbn; tauto|]; split;
  [intros x Hx Nx Hy; cbn in Hx, Hy; intuition (subst; try discriminate; try (apply Nx; reflexivity))
  |intros x; cbn; intuition (subst; try discriminate; tauto)].
Ltac ants_tac := repeat (constructor; [eexists; split; [reflexivity|discriminate]|]); constructor.
Example C50_hyps : forall s0, new_cert true ex_cls = Some s0 -> evs_ok true 5 ex_k s0 ex_events.
Proof.
  intros s0 E. vm_compute in E. injection E as <-. unfold ex_events.
  split; [split; [vm_compute; discriminate|exact Logic.I]|]. intros s E. vm_compute in E. injection E as <-.
  split; [split; [vm_compute; discriminate|exact Logic.I]|]. intros s E. vm_compute in E. injection E as <-.
  split.
  { split; [apply (proper_ax [pos 0]); repeat constructor; cbn; intuition (subst; discriminate)|]. split.
    - exists (lb_sat pv_eqd (lb_add (clause_pb [pos 0; pos 1]) (clause_pb [pos 0; neg 1]))). split.
      + vm_compute. tauto.
      + apply (sat_resolve _ _ (cl_ax [pos 0; pos 1]) (cl_ax [pos 0; neg 1])).
        1,2: apply ex_ax; cbn; tauto.
        1,2: apply clausal_clause; apply ex_ax; cbn; tauto.
        res_tac (axiom (neg 1)).
    - intros j cj Hl. exfalso. do 5 (destruct j as [|j]; [discriminate|]). cbn in Hl. destruct j; discriminate. }
  intros s E. vm_compute in E. injection E as <-.
  split.
  { exists [[neg 0; pos 1]; [pos 0]]. split; [ants_tac|]. exists (cl_ax [pos 1]). split; [|tauto].
    apply (chain_cons _ _ (cl_ax [pos 1])); [|constructor]. res_tac (axiom (neg 0)). }
  intros s E. vm_compute in E. injection E as <-.
  split.
  { exists [[neg 0; neg 1]; [pos 0]]. split; [ants_tac|]. exists (cl_ax [neg 1]). split; [|tauto].
    apply (chain_cons _ _ (cl_ax [neg 1])); [|constructor]. res_tac (axiom (neg 0)). }
  intros s E. vm_compute in E. injection E as <-.
  split; [eexists; eexists; split; [reflexivity|discriminate]|].
  intros s E. vm_compute in E. injection E as <-.
  split.
  { exists [[pos 1]; [neg 1]]. split; [ants_tac|]. exists []. split; [|tauto].
    apply (chain_cons _ _ []); [|constructor]. res_tac (axiom (pos 1)). }
  intros s E. vm_compute in E. injection E as <-.
  split; [intros _; eexists; reflexivity|].
  intros s E. vm_compute in E. injection E as <-.
  split; [intros _; eexists; reflexivity|]. intros s _. exact Logic.I.
Qed.
(** the run ends with a proof of unsatisfiability *)
Example C50_concluded : exists s0 s, new_cert true ex_cls = Some s0 /\ run_events true 5 ex_events s0 = Some s /\ steps_valid ex_k (ps_log (so_p s)) /\ tr_concl (so_tr s) = Some 9 /\ in_proof ex_k s 8 [].
Proof.
  destruct (load_ok true ex_cls [] ex_proper) as (s0 & E & _).
  destruct (C50_ids_stay_aligned true ex_cls [] s0 ex_events ex_proper E (C50_hyps s0 E)) as (s & R & _ & V & L).
  exists s0, s. split; [exact E|]. split; [exact R|]. split; [exact V|]. vm_compute in E. injection E as <-.
  vm_compute in R. injection R as <-. split; [reflexivity|]. apply (L 8 [] Irr); [reflexivity|discriminate].
Qed.
(** ... and with enumeration the same state panics *)
Example C50_enum_panics : match new_cert false ex_cls with
  | Some s => run_events false 5 (ex_events ++ enum_block (Solutions None) 1 [neg 0; pos 1]) s
  | None => Some (mkSol [] tr_new (start_proof []))
  end = None.
Proof. vm_compute. reflexivity. Qed.

(** ** C62: the derivation of a learned clause *)
(** [steps] of resolution from the last clause of [cs] backwards give [c] (specification [derives] in
    TracerThm.v: every step resolves on exactly one variable). Then the cutting-planes derivation the
    tracer writes (add, saturate, ...) can be evaluated and gives exactly the learned clause. *)
Theorem C62_learned_clause_derived : forall k pids cs c,
  ids_ok k ->
  Forall2 (fun i d => proper d /\ In (i, clause_pb d) (k_all k)) pids cs ->
  derives (map cl_ax cs) (cl_ax c) ->
  exists pl C, derivation pids = Some pl /\ pol_eval pv_eqd (id_get (k_all k) (k_next k)) pl = Some C /\
  forall a : pv -> bool, lb_holds a C <-> clause_true (on_solver a) c = true.
Proof.
  intros k pids cs c Hk F Hd.
  assert (F' : Forall2 (fun i d => nontaut d /\ exists D, id_get (k_all k) (k_next k) (CAbs i) = Some D /\ clausal D d) pids (map cl_ax cs)).
  { clear Hd. induction F as [|i d pids cs (Hp & Hi) F IH]; [constructor|]. cbn [map]. constructor; [|exact IH].
    destruct (proper_ax d Hp) as (Hnd & Hnt). split; [exact Hnt|]. exists (clause_pb d). split; [|apply clausal_clause; assumption].
    cbn [id_get]. apply k_get; assumption. }
  destruct (derivation_ok _ pids (map cl_ax cs) (cl_ax c) F' Hd) as (pl & C & E1 & E2 & Hnt & HC).
  exists pl, C. split; [exact E1|]. split; [exact E2|]. intros a. apply clausal_true; assumption.
Qed.
Print Assumptions C62_learned_clause_derived.
Example C62_hyps : let k := init_chk ex_cls [] in
  Forall2 (fun i d => proper d /\ In (i, clause_pb d) (k_all k)) [2; 3; 1] [[pos 0; neg 1]; [neg 0; pos 1]; [pos 0; pos 1]] /\
  derives (map cl_ax [[neg 0; pos 1]; [pos 0; pos 1]]) (cl_ax [pos 1]) /\
  derives (map cl_ax [[pos 0; neg 1]; [neg 0; pos 1]; [pos 0; pos 1]]) (cl_ax [pos 0]).
Proof.
  cbv zeta. split; [|split].
  - repeat constructor; cbn; try tauto; try (intuition discriminate); intros l H; intuition (subst; try discriminate).
  - exists (cl_ax [pos 1]). split; [|tauto]. apply (chain_cons _ _ (cl_ax [pos 1])); [|constructor]. res_tac (axiom (neg 0)).
  - exists (cl_ax [pos 0]). split; [|tauto]. apply (chain_cons _ _ (cl_ax [pos 1])).
    + res_tac (axiom (neg 0)).
    + apply (chain_cons _ _ (cl_ax [pos 0])); [|constructor]. res_tac (axiom (neg 1)).
Qed.
(** A superfluous antecedent, harmless for unit propagation, makes the written derivation too weak:
    from x0 \/ x1, x0 \/ -x1 and x2 \/ x3 the derivation does not give x0 *)
Definition sup_cls : list clause := [[pos 2; pos 3]; [pos 0; neg 1]; [pos 0; pos 1]].
Theorem C62_superfluous_antecedent_refuted : exists pl C (a : pv -> bool),
  derivation [1; 2; 3] = Some pl /\
  pol_eval pv_eqd (id_get (k_all (init_chk sup_cls [])) 4) pl = Some C /\
  (forall b, sat b sup_cls -> clause_true b [pos 0] = true) /\
  lb_holds a C /\ clause_true (on_solver a) [pos 0] = false.
Proof.
  eexists. eexists. exists (fun v => match v with PVs 0 => false | _ => true end). split; [reflexivity|]. split; [vm_compute; reflexivity|].
  split; [|split; [vm_compute; discriminate|reflexivity]].
  intros b H. pose proof (H [pos 0; neg 1] ltac:(cbn; tauto)) as H1. pose proof (H [pos 0; pos 1] ltac:(cbn; tauto)) as H2.
  cbn in *. unfold lit_true in *. cbn in *. destruct (b 0), (b 1); cbn in *; congruence.
Qed.
Print Assumptions C62_superfluous_antecedent_refuted.
(** So does a repeated literal in a clause of the instance: resolving x0 \/ x0 \/ x1 with -x0 \/ x2
    leaves x0 in the result *)
Definition dup_cls : list clause := [[neg 0; pos 2]; [pos 0; pos 0; pos 1]].
Theorem C62_repeated_literal_refuted : exists pl C (a : pv -> bool),
  derivation [1; 2] = Some pl /\
  pol_eval pv_eqd (id_get (k_all (init_chk dup_cls [])) 3) pl = Some C /\
  derives (map cl_ax dup_cls) (cl_ax [pos 1; pos 2]) /\
  lb_holds a C /\ clause_true (on_solver a) [pos 1; pos 2] = false.
Proof.
  eexists. eexists. exists (fun v => match v with PVs 0 => true | _ => false end). split; [reflexivity|]. split; [vm_compute; reflexivity|].
  split; [|split; [vm_compute; discriminate|reflexivity]].
  exists (cl_ax [pos 1; pos 2]). split; [|tauto]. apply (chain_cons _ _ (cl_ax [pos 1; pos 2])); [|constructor]. res_tac (axiom (neg 0)).
Qed.
Print Assumptions C62_repeated_literal_refuted.
