(** * Properties of the proof lines of BiOptSat *)
From Coq Require Import List Arith ZArith Lia Bool.
From Verif Require Import Base BaseLemmas Sem Ext MTypes MPMinimal MPrepro VeriPB VeriThm MProofs ProofThm ProofRun ProofCut MTracer TracerThm ReformSpec ReformThm ReformRun MProofAlg ReifSpec ReifThm ReifRun ProofCert PropProof LinsuCert PropReif BlockSpec BosSpec BosThm.
Import ListNotations.
Local Open Scope Z_scope.

(** ** C69: the proof lines of one iteration *)
(** No buffered inputs. [first0 :: outs0] are the outputs of the increasing objective above [inc_cost], [first1 :: outs1] those of the
    decreasing objective from [dec_cost] on; [x] stands for "the increasing objective is at least [inc_cost]", [lb_id] is the bound of
    linear search on the decreasing objective. *)
Theorem C69_iteration : forall k0 p e0 e1 o1 ts0 ts1 first0 outs0 first1 outs1 x inc_cost dec_cost inc_lb inc_lb_id lb_id pmin_cut b,
  pe_buf_empty e0 = true -> pe_buf_empty e1 = true -> wok k0 p -> w_wf ts0 -> w_wf ts1 ->
  (inc_cost <= pe_next_higher e0 inc_cost)%nat -> chain (kof k0 p) e0 ts0 (pe_next_higher e0 inc_cost) (first0 :: outs0) ->
  chain (kof k0 p) e1 ts1 dec_cost (first1 :: outs1) -> NoDup (map lvar (first0 :: outs0)) -> NoDup (map lvar (first1 :: outs1)) ->
  ~ In (lvar first1) (map lvar (first0 :: outs0)) -> ax_var x <> PVs (lvar first1) ->
  pe_enforce_ub e1 (dec_cost - 1) = Some (map lnot (first1 :: outs1)) ->
  inc_bound (kof k0 p) e0 inc_cost inc_lb inc_lb_id b x -> pmin_says (kof k0 p) e0 inc_cost pmin_cut x [ax_not (axiom first1)] ->
  derived (kof k0 p) lb_id (map axiom (first0 :: outs0) ++ [axiom first1]) ->
  exists b' p', bos_step e0 e1 o1 inc_cost dec_cost inc_lb inc_lb_id (Some lb_id) (map lnot (first0 :: outs0)) pmin_cut b p = Some (b', p') /\
    (* every line is accepted, nothing is lost *)
    steps_valid k0 (ps_log p') /\ wok k0 p' /\ (forall e, In e (k_all (kof k0 p)) -> In e (k_all (kof k0 p'))) /\
    (forall a, proof_holds a (kof k0 p) -> proof_holds a (kof k0 p')) /\
    (* the clauses handed to the solver are the bound on the decreasing objective, and are in the proof *)
    (exists new, ps_reg p' = ps_reg p ++ new /\ reg_units (kof k0 p') (map lnot (first1 :: outs1)) new) /\
    (* the bound holds in all that is left *)
    (forall a, proof_holds a (kof k0 p') -> lb_sum a ts1 < Z.of_nat dec_cost - Z.of_nat (pe_offset e1)) /\
    (* the next value of the increasing objective is a bound for the next iteration *)
    inc_bound (kof k0 p') e0 (pe_next_higher e0 inc_cost) (pe_next_higher e0 inc_cost) None b' (axiom first0).
Proof.
  intros k0 p e0 e1 o1 ts0 ts1 first0 outs0 first1 outs1 x inc_cost dec_cost inc_lb inc_lb_id lb_id pmin_cut b B0 B1 W W0 W1 Hnh C0 C1 N0 N1 Nf Nx He Hb Hp Hl.
  unfold bos_step. rewrite B0, B1.
  destruct (bos_shorten_ok k0 p e0 ts0 inc_cost first0 outs0 lb_id (axiom first1) W W0 Hnh C0) as (id & p1 & E1 & F1 & R1 & D1).
  { unfold proper_ls. rewrite map_app, map_map. change (map (fun x0 => ax_var (axiom x0)) (first0 :: outs0)) with (map (fun l => PVs (lvar l)) (first0 :: outs0)).
    rewrite <- (map_map lvar PVs). apply NoDup_app_intro.
    - apply FinFun.Injective_map_NoDup; [intros u v E; injection E as E; exact E|exact N0].
    - repeat constructor; intros [].
    - intros y Hy [<-|[]]. apply Nf. apply in_map_iff in Hy. destruct Hy as (u & E & Hu). injection E as E. rewrite <- E. exact Hu. }
  { exact Hl. }
  rewrite E1.
  destruct (bos_cut_ok k0 p1 e0 inc_cost inc_lb inc_lb_id b pmin_cut x [ax_not (axiom first1)] (fr_wok _ _ _ F1)) as (cut & p2 & E2 & F2 & R2 & D2).
  { repeat constructor; cbn [map In ax_not ax_var axiom]; [intros [E|[]]; apply Nx; symmetry; exact E|intros []]. }
  { exact (inc_bound_mono _ _ _ _ _ _ _ _ (fr_old _ _ _ F1) Hb). }
  { exact (derived_mono _ _ _ _ (fr_old _ _ _ F1) Hp). }
  rewrite E2. pose proof (frame_trans _ _ _ _ F1 F2) as F12.
  destruct (bos_add_ok k0 p2 e1 ts1 dec_cost first1 outs1 cut (fr_wok _ _ _ F2) W1 (chain_mono _ _ _ _ _ _ (fr_old _ _ _ F12) C1) N1 He D2) as (p3 & new & E3 & F3 & R3 & U3).
  rewrite E3. pose proof (frame_trans _ _ _ _ F12 F3) as F. eexists. eexists. split; [reflexivity|].
  split; [exact (wk_valid _ _ (fr_wok _ _ _ F))|]. split; [exact (fr_wok _ _ _ F)|]. split; [exact (fr_old _ _ _ F)|]. split; [exact (fr_sound _ _ _ F)|].
  split; [exists new; split; [rewrite R3, R2, R1; reflexivity|exact U3]|]. pose proof (derived_mono _ _ _ _ (fr_old _ _ _ F3) D2) as D2'. split.
  - intros a Ha. destruct C1 as ((fi & oi & O1) & _). pose proof (out_means _ _ _ _ _ _ _ a W1 (out_at_mono _ _ _ _ _ _ _ _ (fr_old _ _ _ F) O1) Ha) as Q.
    pose proof (derived_unit _ _ _ a D2' Ha) as T. rewrite ax_not_true in T. destruct (Z.lt_ge_cases (lb_sum a ts1) (Z.of_nat dec_cost - Z.of_nat (pe_offset e1))) as [Y|Y]; [exact Y|].
    rewrite (proj2 Q Y) in T. discriminate.
  - intros Hlt. split; [|intros X; contradiction]. intros _. exists cut, id, (axiom first1). cbn [bs_cut bs_lb]. split; [reflexivity|]. split; [reflexivity|].
    split; [exact D2'|]. split; [exact (derived_mono _ _ _ _ (fr_old _ _ _ (frame_trans _ _ _ _ F2 F3)) D1)|].
    cbn [axiom ax_var]. intros E. injection E as E. apply Nf. left. exact E.
Qed.
Print Assumptions C69_iteration.

(** With buffered inputs of the decreasing objective: [ideal] stands for "the decreasing objective is at least [dec_cost]" *)
Theorem C69_iteration_buffered : forall k0 objs p e0 e1 o1 ts0 first0 outs0 as_ n d1 d2 x inc_cost dec_cost inc_lb inc_lb_id lb_id pmin_cut b,
  pe_buf_empty e0 = true -> pe_buf_empty e1 = false -> wok k0 p -> bounds_ok k0 objs p -> (forall o, In o objs -> obj_idx o = obj_idx o1 -> o = o1) ->
  w_wf ts0 -> (inc_cost <= pe_next_higher e0 inc_cost)%nat -> chain (kof k0 p) e0 ts0 (pe_next_higher e0 inc_cost) (first0 :: outs0) ->
  NoDup (map lvar (first0 :: outs0)) -> ax_var x <> PVp n ->
  bound_get (ps_bounds p) (obj_idx o1, dec_cost) = Some (mkAx (PVp n) false, d1, d2) ->
  buf_from (kof k0 p) e1 o1 dec_cost dec_cost as_ -> pe_enforce_ub e1 (dec_cost - 1) = Some as_ ->
  inc_bound (kof k0 p) e0 inc_cost inc_lb inc_lb_id b x -> pmin_says (kof k0 p) e0 inc_cost pmin_cut x [mkAx (PVp n) true] ->
  derived (kof k0 p) lb_id (map axiom (first0 :: outs0) ++ [mkAx (PVp n) false]) ->
  exists b' p', bos_step e0 e1 o1 inc_cost dec_cost inc_lb inc_lb_id (Some lb_id) (map lnot (first0 :: outs0)) pmin_cut b p = Some (b', p') /\
    steps_valid k0 (ps_log p') /\ wok k0 p' /\ bounds_ok k0 objs p' /\ (forall e, In e (k_all (kof k0 p)) -> In e (k_all (kof k0 p'))) /\
    (forall a, proof_holds a (kof k0 p) -> proof_holds a (kof k0 p')) /\
    (exists new, ps_reg p' = ps_reg p ++ new /\ reg_units (kof k0 p') as_ new) /\
    (forall a, proof_holds a (kof k0 p') -> (icost o1 (on_solver a) < dec_cost)%nat) /\
    inc_bound (kof k0 p') e0 (pe_next_higher e0 inc_cost) (pe_next_higher e0 inc_cost) None b' (axiom first0).
Proof.
  intros k0 objs p e0 e1 o1 ts0 first0 outs0 as_ n d1 d2 x inc_cost dec_cost inc_lb inc_lb_id lb_id pmin_cut b B0 B1 W B Hidx W0 Hnh C0 N0 Nx Hg Hbuf He Hb Hp Hl.
  unfold bos_step. rewrite B0, B1.
  destruct (bos_shorten_ok k0 p e0 ts0 inc_cost first0 outs0 lb_id (mkAx (PVp n) false) W W0 Hnh C0) as (id & p1 & E1 & F1 & R1 & D1).
  { unfold proper_ls. rewrite map_app, map_map. change (map (fun x0 => ax_var (axiom x0)) (first0 :: outs0)) with (map (fun l => PVs (lvar l)) (first0 :: outs0)).
    rewrite <- (map_map lvar PVs). apply NoDup_app_intro.
    - apply FinFun.Injective_map_NoDup; [intros u v E; injection E as E; exact E|exact N0].
    - repeat constructor; intros [].
    - intros y Hy [<-|[]]. apply in_map_iff in Hy. destruct Hy as (u & E & Hu). discriminate. }
  { exact Hl. }
  rewrite E1.
  destruct (bos_cut_ok k0 p1 e0 inc_cost inc_lb inc_lb_id b pmin_cut x [mkAx (PVp n) true] (fr_wok _ _ _ F1)) as (cut & p2 & E2 & F2 & R2 & D2).
  { repeat constructor; cbn [map In ax_not ax_var axiom]; [intros [E|[]]; apply Nx; symmetry; exact E|intros []]. }
  { exact (inc_bound_mono _ _ _ _ _ _ _ _ (fr_old _ _ _ F1) Hb). }
  { exact (derived_mono _ _ _ _ (fr_old _ _ _ F1) Hp). }
  rewrite E2. pose proof (frame_trans _ _ _ _ F1 F2) as F12.
  destruct (B _ _ _ _ _ Hg) as (o & m & Ho & Eo & Em & Id1 & Id2 & _). rewrite (Hidx o Ho Eo) in *. injection Em as <-.
  destruct (bos_add_buf_loop_ok e1 o1 dec_cost n d1 cut k0 as_ dec_cost p2 (fr_wok _ _ _ F2) (fr_old _ _ _ F12 _ Id1) D2 (buf_from_mono _ _ _ _ _ _ _ (fr_old _ _ _ F12) Hbuf)) as (p3 & new & E3 & F3 & R3 & U3).
  unfold bos_add_buf. rewrite He. unfold get_obj_bound. rewrite (fr_bounds _ _ _ F12), Hg, E3. pose proof (frame_trans _ _ _ _ F12 F3) as F. eexists. eexists. split; [reflexivity|].
  split; [exact (wk_valid _ _ (fr_wok _ _ _ F))|]. split; [exact (fr_wok _ _ _ F)|].
  split; [apply (bounds_mono k0 objs p p3 B (fr_bounds _ _ _ F) (fr_old _ _ _ F)); rewrite (fr_vmap _ _ _ F); auto|].
  split; [exact (fr_old _ _ _ F)|]. split; [exact (fr_sound _ _ _ F)|].
  split; [exists new; split; [rewrite R3, R2, R1; reflexivity|exact U3]|]. pose proof (derived_mono _ _ _ _ (fr_old _ _ _ F3) D2) as D2'. split.
  - intros a Ha. pose proof (derived_unit _ _ _ a D2' Ha) as T. specialize (Ha _ (fr_old _ _ _ F _ Id1)). cbn [snd] in Ha. apply bound_def_1_holds in Ha; [exact Ha|].
    unfold ax_true in T. cbn in T. destruct (a (PVp n)); [discriminate|reflexivity].
  - intros Hlt. split; [|intros X; contradiction]. intros _. exists cut, id, (mkAx (PVp n) false). cbn [bs_cut bs_lb]. split; [reflexivity|]. split; [reflexivity|].
    split; [exact D2'|]. split; [exact (derived_mono _ _ _ _ (fr_old _ _ _ (frame_trans _ _ _ _ F2 F3)) D1)|]. discriminate.
Qed.
Print Assumptions C69_iteration_buffered.

(** The bound on the decreasing objective does not depend on the increasing one: the proof becomes contradictory *)
Theorem C69_unconditional_bound : forall k0 p e0 e1 o1 ts0 ts1 first0 outs0 first1 outs1 x inc_cost dec_cost inc_lb inc_lb_id lb_id pmin_cut b,
  pe_buf_empty e0 = true -> pe_buf_empty e1 = true -> wok k0 p -> w_wf ts0 -> w_wf ts1 ->
  (inc_cost <= pe_next_higher e0 inc_cost)%nat -> chain (kof k0 p) e0 ts0 (pe_next_higher e0 inc_cost) (first0 :: outs0) ->
  chain (kof k0 p) e1 ts1 dec_cost (first1 :: outs1) -> NoDup (map lvar (first0 :: outs0)) -> NoDup (map lvar (first1 :: outs1)) ->
  ax_var x <> PVs (lvar first1) -> pe_enforce_ub e1 (dec_cost - 1) = Some (map lnot (first1 :: outs1)) ->
  inc_bound (kof k0 p) e0 inc_cost inc_lb inc_lb_id b x -> pmin_says (kof k0 p) e0 inc_cost pmin_cut x [ax_not (axiom first1)] ->
  derived (kof k0 p) lb_id [axiom first1] ->
  exists b' p', bos_step e0 e1 o1 inc_cost dec_cost inc_lb inc_lb_id (Some lb_id) (map lnot (first0 :: outs0)) pmin_cut b p = Some (b', p') /\
    steps_valid k0 (ps_log p') /\ wok k0 p' /\ (forall e, In e (k_all (kof k0 p)) -> In e (k_all (kof k0 p'))) /\
    (exists new, ps_reg p' = ps_reg p ++ new /\ reg_units (kof k0 p') (map lnot (first1 :: outs1)) new) /\
    forall a, ~ proof_holds a (kof k0 p').
Proof.
  intros k0 p e0 e1 o1 ts0 ts1 first0 outs0 first1 outs1 x inc_cost dec_cost inc_lb inc_lb_id lb_id pmin_cut b B0 B1 W W0 W1 Hnh C0 C1 N0 N1 Nx He Hb Hp Hl.
  unfold bos_step. rewrite B0, B1. pose proof Hl as (C & IC & HC).
  destruct (bos_shorten_any k0 p e0 ts0 inc_cost first0 outs0 lb_id C W W0 Hnh C0 N0 IC) as (id & p1 & E1 & F1 & R1).
  rewrite E1.
  destruct (bos_cut_ok k0 p1 e0 inc_cost inc_lb inc_lb_id b pmin_cut x [ax_not (axiom first1)] (fr_wok _ _ _ F1)) as (cut & p2 & E2 & F2 & R2 & D2).
  { repeat constructor; cbn [map In ax_not ax_var axiom]; [intros [E|[]]; apply Nx; symmetry; exact E|intros []]. }
  { exact (inc_bound_mono _ _ _ _ _ _ _ _ (fr_old _ _ _ F1) Hb). }
  { exact (derived_mono _ _ _ _ (fr_old _ _ _ F1) Hp). }
  rewrite E2. pose proof (frame_trans _ _ _ _ F1 F2) as F12.
  destruct (bos_add_ok k0 p2 e1 ts1 dec_cost first1 outs1 cut (fr_wok _ _ _ F2) W1 (chain_mono _ _ _ _ _ _ (fr_old _ _ _ F12) C1) N1 He D2) as (p3 & new & E3 & F3 & R3 & U3).
  rewrite E3. pose proof (frame_trans _ _ _ _ F12 F3) as F. eexists. eexists. split; [reflexivity|].
  split; [exact (wk_valid _ _ (fr_wok _ _ _ F))|]. split; [exact (fr_wok _ _ _ F)|]. split; [exact (fr_old _ _ _ F)|].
  split; [exists new; split; [rewrite R3, R2, R1; reflexivity|exact U3]|].
  intros a Ha. pose proof (derived_unit _ _ _ a (derived_mono _ _ _ _ (fr_old _ _ _ F3) D2) Ha) as T1.
  pose proof (derived_unit _ _ _ a (derived_mono _ _ _ _ (fr_old _ _ _ F) Hl) Ha) as T2. rewrite ax_not_true, T2 in T1. discriminate.
Qed.
Print Assumptions C69_unconditional_bound.

(** The last iteration: the decreasing objective cannot be improved, the constraint given as the reason for unsatisfiability is contradictory *)
Theorem C69_conclusion : forall k0 p e0 x inc_cost inc_lb inc_lb_id pmin_cut b, wok k0 p ->
  inc_bound (kof k0 p) e0 inc_cost inc_lb inc_lb_id b x -> pmin_says (kof k0 p) e0 inc_cost pmin_cut x [] ->
  exists cut p', bos_cut e0 inc_cost inc_lb inc_lb_id (bs_cut b) (bs_lb b) pmin_cut p = Some (cut, p') /\ steps_valid k0 (ps_log p') /\ wok k0 p' /\
    (exists C, In (cut, C) (k_all (kof k0 p')) /\ forall a, ~ lb_holds a C) /\ forall a, ~ proof_holds a (kof k0 p).
Proof.
  intros k0 p e0 x inc_cost inc_lb inc_lb_id pmin_cut b W Hb Hp.
  destruct (bos_cut_ok k0 p e0 inc_cost inc_lb inc_lb_id b pmin_cut x [] W) as (cut & p' & E & F & R & D); try assumption.
  { repeat constructor. intros []. }
  exists cut, p'. split; [exact E|]. split; [exact (wk_valid _ _ (fr_wok _ _ _ F))|]. split; [exact (fr_wok _ _ _ F)|]. split.
  - destruct D as (C & IC & HC). exists C. split; [exact IC|]. intros a Ha. rewrite (clausal_holds a C []) in Ha; [|intros y []|exact HC]. destruct Ha as (y & [] & _).
  - intros a Ha. exact (derived_empty _ _ a D (fr_sound _ _ _ F a Ha)).
Qed.
Print Assumptions C69_conclusion.

(** The cut of the solution has the form that is expected above. Both objectives have several literals and outputs; they have no
    buffered inputs ([several]) *)
Lemma several_cut : forall c p olit i d, several c -> (obj_lb (co_obj c) < co_cost c)%nat -> pe_details (co_enc c) (co_cost c) = Some (olit, (i, Some d)) ->
  cut_one (co_enc c) (co_obj c) (co_reform c) (co_cost c) p = Some ((Some (ax_not (axiom olit)), Some d), p).
Proof.
  intros c p olit i d (L & N & B) H E. unfold cut_one. destruct (Nat.leb_spec (co_cost c) (obj_lb (co_obj c))); [lia|].
  rewrite B, E. destruct (Nat.eqb_spec (pe_nout (co_enc c)) 1); [contradiction|].
  destruct (obj_iter (co_obj c)) as [|[l w] [|y r]]; [reflexivity|exfalso; apply L; reflexivity|reflexivity].
Qed.
Theorem C69_cut : forall k0 c0 c1 witness max_enc nv p fw olit0 olit1 i0 d0 i1 d1,
  ready k0 [c0; c1] witness max_enc nv p fw -> obj_idx (co_obj c0) = 0%nat -> obj_idx (co_obj c1) = 1%nat ->
  pe_offset (co_enc c0) = obj_lb (co_obj c0) -> several c0 -> several c1 -> lvar olit0 <> lvar olit1 ->
  (co_cost c0 <= obj_lb (co_obj c0) -> co_cost c0 = 0 \/ co_reform c0 <> None)%nat ->
  ((obj_lb (co_obj c0) < co_cost c0)%nat -> pe_details (co_enc c0) (co_cost c0) = Some (olit0, (i0, Some d0))) ->
  (co_cost c1 <= obj_lb (co_obj c1) -> co_cost c1 = 0 \/ co_reform c1 <> None)%nat ->
  ((obj_lb (co_obj c1) < co_cost c1)%nat -> pe_details (co_enc c1) (co_cost c1) = Some (olit1, (i1, Some d1))) ->
  (* C64 shows that the cut is not accepted otherwise *)
  (forall c, In c [c0; c1] -> co_cost c <= obj_lb (co_obj c) -> co_reform c <> None -> obj_unit_weight (co_obj c) = 1)%nat ->
  exists id p', certify_pmin_cut [c0; c1] witness max_enc p = Some (id, p') /\ steps_valid k0 (ps_log p') /\ wok k0 p' /\ ps_reg p' = ps_reg p /\
    (forall e, In e (k_all (kof k0 p)) -> In e (k_all (kof k0 p'))) /\
    k_excl (kof k0 p') = map axiom (sol_lits (truncate witness max_enc)) :: k_excl (kof k0 p) /\
    pmin_says (kof k0 p') (co_enc c0) (co_cost c0) id (axiom olit0)
      (if (co_cost c1 <=? obj_lb (co_obj c1))%nat then [] else [ax_not (axiom olit1)]).
Proof.
  intros k0 c0 c1 witness max_enc nv p fw olit0 olit1 i0 d0 i1 d1 R I0 I1 Hoff S0 S1 Nv Z0 E0 Z1 E1 U.
  assert (D : exists ds, cut_data [c0; c1] p = Some (ds, p) /\
    cut_lits ds = (if (co_cost c0 <=? obj_lb (co_obj c0))%nat then [] else [ax_not (axiom olit0)]) ++ (if (co_cost c1 <=? obj_lb (co_obj c1))%nat then [] else [ax_not (axiom olit1)])).
  { assert (One : forall c olit i d q, several c ->
      (co_cost c <= obj_lb (co_obj c) -> co_cost c = 0 \/ co_reform c <> None)%nat ->
      ((obj_lb (co_obj c) < co_cost c)%nat -> pe_details (co_enc c) (co_cost c) = Some (olit, (i, Some d))) ->
      exists x, cut_one (co_enc c) (co_obj c) (co_reform c) (co_cost c) q = Some (x, q) /\
        fst x = if (co_cost c <=? obj_lb (co_obj c))%nat then None else Some (ax_not (axiom olit))).
    { intros c olit i d q S Z E. destruct (Nat.leb_spec (co_cost c) (obj_lb (co_obj c))) as [H|H].
      - unfold cut_one. destruct (Nat.leb_spec (co_cost c) (obj_lb (co_obj c))); [|lia].
        assert (Q : ((co_cost c =? 0)%nat || is_some (co_reform c)) = true).
        { destruct (Z H) as [X|X]; [rewrite X; reflexivity|]. destruct (co_reform c); [apply orb_true_r|contradiction]. }
        rewrite Q. eexists. split; [reflexivity|reflexivity].
      - rewrite (several_cut c q olit i d S H (E H)). eexists. split; [reflexivity|reflexivity]. }
    destruct (One c0 olit0 i0 d0 p S0 Z0 E0) as (x0 & A0 & B0). destruct (One c1 olit1 i1 d1 p S1 Z1 E1) as (x1 & A1 & B1).
    exists [x0; x1]. cbn [cut_data]. rewrite A0, A1. split; [reflexivity|]. unfold cut_lits. cbn [filter_map]. rewrite B0, B1.
    destruct (co_cost c0 <=? obj_lb (co_obj c0))%nat, (co_cost c1 <=? obj_lb (co_obj c1))%nat; reflexivity. }
  destruct D as (ds & Ed & El). destruct R as [R1 R2 R3 R4 R5 R6 R7 R8 R9 R10 R11 R12].
  destruct (certify_pmin_cut [c0; c1] witness max_enc p) as [[id p']|] eqn:Ec.
  2:{ exfalso. unfold certify_pmin_cut in Ec. rewrite Ed, R7 in Ec. unfold wr_id in Ec. discriminate. }
  destruct (certify_cut_full k0 [c0; c1] witness max_enc p fw id p') as (W & _ & _ & _ & X & M & Rg & cut & (ds' & p1 & Ed' & Ecut & _) & Ic & _); try assumption.
  { intros [|[|i]] c H; cbn in H; [injection H as <-; exact I0|injection H as <-; exact I1|destruct i; discriminate]. }
  exists id, p'. split; [reflexivity|]. split; [exact (wk_valid _ _ W)|]. split; [exact W|]. split; [exact Rg|]. split; [exact M|]. split; [exact X|].
  rewrite Ed in Ed'. injection Ed' as <- _. subst cut. unfold pmin_says. rewrite Hoff.
  exists (lb_clause (cut_lits ds)). split; [apply in_k_all; left; exact Ic|].
  replace ((if (co_cost c0 <=? obj_lb (co_obj c0))%nat then [] else [ax_not (axiom olit0)]) ++ (if (co_cost c1 <=? obj_lb (co_obj c1))%nat then [] else [ax_not (axiom olit1)])) with (cut_lits ds).
  apply clause_proper. rewrite El. destruct (co_cost c0 <=? obj_lb (co_obj c0))%nat, (co_cost c1 <=? obj_lb (co_obj c1))%nat; cbn [app]; unfold proper_ls;
    cbn [map ax_not ax_var axiom]; repeat constructor; cbn [In]; intuition congruence.
Qed.
Print Assumptions C69_cut.

(** ** Example *)
(** The objectives are x0 + x1 with outputs x10 (1) and x11 (2), and x2 + x3 with outputs x12 (1) and x13 (2). The non-dominated points are
    (0,2), (1,1) and (2,0); the constraints 9 to 13 are the bounds of linear search and the cuts of the solutions. *)
Definition ba_ts (x y : nat) : list (Z * ax pv) := [(1, axiom (pos x)); (1, axiom (pos y))].
Definition ba_o1 : objective := OUnweighted 0 1 [pos 2; pos 3] 1 0.
Definition ba_e (o1 o2 d : nat) : penc := mkPenc 0 2 true
  (fun b => match b with 0 => Some [neg o1; neg o2] | 1 => Some [neg o2] | _ => Some [] end)%nat
  (fun v => match v with
            | 1 => Some (pos o1, (Some d, Some (d + 1)%nat)) | 2 => Some (pos o2, (Some (d + 2)%nat, Some (d + 3)%nat)) | _ => None end)%nat
  S (fun _ => []).
Definition ba_defs (ts : list (Z * ax pv)) (o1 o2 d : nat) : list entry :=
  [(d, wif_def ts (axiom (pos o1)) 1); (d + 1, wonly_def ts (axiom (pos o1)) 1); (d + 2, wif_def ts (axiom (pos o2)) 2); (d + 3, wonly_def ts (axiom (pos o2)) 2)]%nat.
Definition ba_k : chk := mkChk []
  (ba_defs (ba_ts 0 1) 10 11 1 ++ ba_defs (ba_ts 2 3) 12 13 5 ++
   [(9%nat, lb_clause (map axiom [pos 10; pos 11; pos 13])); (10%nat, lb_clause (map axiom [neg 13]));
    (11%nat, lb_clause (map axiom [pos 11; pos 12])); (12%nat, lb_clause (map axiom [neg 10; neg 12])); (13%nat, lb_clause (map axiom [neg 11]))]) 14 [] [].
Definition ba_e0 : penc := ba_e 10 11 1.
Definition ba_e1 : penc := ba_e 12 13 5.
Lemma ba_wok : wok ba_k (start ba_k).
Proof.
  apply start_wok.
  - cbn. repeat constructor; cbn; intuition discriminate.
  - cbn. repeat (constructor; [cbn; lia|]). constructor.
  - repeat (constructor; [reflexivity|]). constructor.
Qed.
Lemma ba_wf : forall x y, x <> y -> w_wf (ba_ts x y).
Proof. intros x y H. split; [repeat constructor; cbn; intuition congruence|]. intros t [<-|[<-|[]]]; cbn; lia. Qed.
Lemma ba_out : forall k x y o1 o2 d v o fi oi, x <> y -> pe_details (ba_e o1 o2 d) v = Some (o, (Some fi, Some oi)) -> (0 < v <= 2)%nat -> lvar o <> x -> lvar o <> y ->
  In (fi, wif_def (ba_ts x y) (axiom o) (Z.of_nat v)) (k_all k) -> In (oi, wonly_def (ba_ts x y) (axiom o) (Z.of_nat v)) (k_all k) ->
  has_out k (ba_e o1 o2 d) (ba_ts x y) v o.
Proof.
  intros k x y o1 o2 d v o fi oi Hxy H Hv N0 N1 I1 I2. assert (N : ~ In (PVs (lvar o)) (map ax_var (map snd (ba_ts x y)))).
  { cbn. intros [X|[X|[]]]; injection X as X; congruence. }
  assert (E : Z.of_nat v - Z.of_nat (pe_offset (ba_e o1 o2 d)) = Z.of_nat v) by (cbn [ba_e pe_offset]; lia).
  exists fi, oi. constructor; [exact H|cbn [ba_e pe_offset]; lia|rewrite E; change (wtot (ba_ts x y)) with 2; lia|exact N| |]; rewrite E.
  - eexists. split; [exact I1|]. apply wif_concrete; [apply ba_wf; exact Hxy|change (wtot (ba_ts x y)) with 2; lia|exact N].
  - eexists. split; [exact I2|]. apply wonly_concrete; [apply ba_wf; exact Hxy|lia|exact N].
Qed.
Lemma ba_outs : has_out ba_k ba_e0 (ba_ts 0 1) 1 (pos 10) /\ has_out ba_k ba_e0 (ba_ts 0 1) 2 (pos 11) /\
  has_out ba_k ba_e1 (ba_ts 2 3) 1 (pos 12) /\ has_out ba_k ba_e1 (ba_ts 2 3) 2 (pos 13).
Proof.
  split; [|split; [|split]].
  - apply (ba_out ba_k 0 1 10 11 1 1 (pos 10) 1 2); try discriminate; try lia; try reflexivity; cbn; tauto.
  - apply (ba_out ba_k 0 1 10 11 1 2 (pos 11) 3 4); try discriminate; try lia; try reflexivity; cbn; tauto.
  - apply (ba_out ba_k 2 3 12 13 5 1 (pos 12) 5 6); try discriminate; try lia; try reflexivity; cbn; tauto.
  - apply (ba_out ba_k 2 3 12 13 5 2 (pos 13) 7 8); try discriminate; try lia; try reflexivity; cbn; tauto.
Qed.
Lemma ba_derived : forall i ls, In (i, lb_clause (map axiom ls)) (k_all ba_k) -> proper_ls (map axiom ls) -> derived ba_k i (map axiom ls).
Proof. intros i ls H P. exists (lb_clause (map axiom ls)). split; [exact H|]. apply clause_proper. exact P. Qed.
Example ba_run : exists b1 p1 b2 p2 cut p3,
  bos_step ba_e0 ba_e1 ba_o1 0 2 0 None (Some 9%nat) [neg 10; neg 11] 10 (mkBst None None) (start ba_k) = Some (b1, p1) /\
  bos_step ba_e0 ba_e1 ba_o1 1 1 1 None (Some 11%nat) [neg 11] 12 b1 p1 = Some (b2, p2) /\
  bos_cut ba_e0 2 2 None (bs_cut b2) (bs_lb b2) 13 p2 = Some (cut, p3) /\
  steps_valid ba_k (ps_log p3) /\ map fst (ps_reg p3) = [[neg 13]; [neg 12]; [neg 13]] /\
  exists C, In (cut, C) (k_all (kof ba_k p3)) /\ forall a, ~ lb_holds a C.
Proof.
  destruct ba_outs as (H1 & H2 & H3 & H4).
  destruct (C69_iteration ba_k (start ba_k) ba_e0 ba_e1 ba_o1 (ba_ts 0 1) (ba_ts 2 3) (pos 10) [pos 11] (pos 13) [] (axiom (pos 10)) 0 2 0 None 9 10 (mkBst None None))
    as (b1 & p1 & E1 & _ & W1 & M1 & _ & _ & _ & B1); try (cbn; lia); try reflexivity; try discriminate.
  { exact ba_wok. }
  { apply ba_wf. discriminate. }
  { apply ba_wf. discriminate. }
  { split; [exact H1|]. split; [cbn; lia|]. split; [exact H2|]. split; [congruence|exact Logic.I]. }
  { split; [exact H4|]. split; [congruence|exact Logic.I]. }
  { repeat constructor; cbn; intuition discriminate. }
  { repeat constructor; cbn; intuition discriminate. }
  { intros H. cbn in H. lia. }
  { apply (ba_derived 10 [neg 13]); [cbn; tauto|]. repeat constructor; cbn; intuition discriminate. }
  { apply (ba_derived 9 [pos 10; pos 11; pos 13]); [cbn; tauto|]. repeat constructor; cbn; intuition discriminate. }
  destruct (C69_iteration ba_k p1 ba_e0 ba_e1 ba_o1 (ba_ts 0 1) (ba_ts 2 3) (pos 11) [] (pos 12) [pos 13] (axiom (pos 10)) 1 1 1 None 11 12 b1)
    as (b2 & p2 & E2 & _ & W2 & M2 & _ & _ & _ & B2); try (cbn; lia); try reflexivity; try discriminate.
  { exact W1. }
  { apply ba_wf. discriminate. }
  { apply ba_wf. discriminate. }
  { apply (chain_mono _ _ _ _ _ _ M1). split; [exact H2|]. split; [congruence|exact Logic.I]. }
  { apply (chain_mono _ _ _ _ _ _ M1). split; [exact H3|]. split; [cbn; lia|]. split; [exact H4|]. split; [congruence|exact Logic.I]. }
  { repeat constructor; cbn; intuition discriminate. }
  { repeat constructor; cbn; intuition discriminate. }
  { exact B1. }
  { apply (derived_mono _ _ _ _ M1). apply (ba_derived 12 [neg 10; neg 12]); [cbn; tauto|]. repeat constructor; cbn; intuition discriminate. }
  { apply (derived_mono _ _ _ _ M1). apply (ba_derived 11 [pos 11; pos 12]); [cbn; tauto|]. repeat constructor; cbn; intuition discriminate. }
  destruct (C69_conclusion ba_k p2 ba_e0 (axiom (pos 11)) 2 2 None 13 b2 W2) as (cut & p3 & E3 & V3 & _ & C3 & _).
  { exact B2. }
  { apply (derived_mono _ _ _ _ M2). apply (derived_mono _ _ _ _ M1). apply (ba_derived 13 [neg 11]); [cbn; tauto|]. repeat constructor; cbn; intuition discriminate. }
  exists b1, p1, b2, p2, cut, p3. split; [exact E1|]. split; [exact E2|]. split; [exact E3|]. split; [exact V3|]. split; [|exact C3].
  vm_compute in E1. injection E1 as <- <-. vm_compute in E2. injection E2 as <- <-. vm_compute in E3. injection E3 as _ <-. reflexivity.
Qed.

(** the bound on the decreasing objective does not depend on the increasing one *)
Definition bu_k : chk := mkChk [] (ba_defs (ba_ts 0 1) 10 11 1 ++ ba_defs (ba_ts 2 3) 12 13 5 ++
  [(9%nat, lb_clause (map axiom [pos 12])); (10%nat, lb_clause (map axiom [neg 12]))]) 11 [] [].
Example bu_run : exists b p, bos_step ba_e0 ba_e1 ba_o1 0 1 0 None (Some 9%nat) [neg 10; neg 11] 10 (mkBst None None) (start bu_k) = Some (b, p) /\
  steps_valid bu_k (ps_log p) /\ map fst (ps_reg p) = [[neg 12]; [neg 13]] /\ forall a, ~ proof_holds a (kof bu_k p).
Proof.
  destruct (C69_unconditional_bound bu_k (start bu_k) ba_e0 ba_e1 ba_o1 (ba_ts 0 1) (ba_ts 2 3) (pos 10) [pos 11] (pos 12) [pos 13] (axiom (pos 10)) 0 1 0 None 9 10 (mkBst None None))
    as (b & p & E & V & _ & _ & _ & X); try (cbn; lia); try reflexivity; try discriminate.
  - apply start_wok.
    + cbn. repeat constructor; cbn; intuition discriminate.
    + cbn. repeat (constructor; [cbn; lia|]). constructor.
    + repeat (constructor; [reflexivity|]). constructor.
  - apply ba_wf. discriminate.
  - apply ba_wf. discriminate.
  - split; [apply (ba_out bu_k 0 1 10 11 1 1 (pos 10) 1 2); try discriminate; try lia; try reflexivity; cbn; tauto|]. split; [cbn; lia|].
    split; [apply (ba_out bu_k 0 1 10 11 1 2 (pos 11) 3 4); try discriminate; try lia; try reflexivity; cbn; tauto|]. split; [congruence|exact Logic.I].
  - split; [apply (ba_out bu_k 2 3 12 13 5 1 (pos 12) 5 6); try discriminate; try lia; try reflexivity; cbn; tauto|]. split; [cbn; lia|].
    split; [apply (ba_out bu_k 2 3 12 13 5 2 (pos 13) 7 8); try discriminate; try lia; try reflexivity; cbn; tauto|]. split; [congruence|exact Logic.I].
  - repeat constructor; cbn; intuition discriminate.
  - repeat constructor; cbn; intuition discriminate.
  - intros H. cbn in H. lia.
  - exists (lb_clause (map axiom [neg 12])). split; [cbn; tauto|]. apply (clause_proper (map axiom [neg 12])). repeat constructor. intros [].
  - exists (lb_clause (map axiom [pos 12])). split; [cbn; tauto|]. apply (clause_proper (map axiom [pos 12])). repeat constructor. intros [].
  - exists b, p. split; [exact E|]. split; [exact V|]. split; [|exact X]. vm_compute in E. injection E as _ <-. reflexivity.
Qed.
(** the decreasing objective is the one of [rb_linsu], with an input in the buffer; the increasing one is x20 + x21 *)
Definition bf_k : chk := mkChk []
  ([(1%nat, wonly_def rb_ts (axiom (pos 14)) 5); (2%nat, wonly_def rb_ts (axiom (pos 15)) 7); (3%nat, wonly_def rb_ts (axiom (pos 16)) 10)] ++
   ba_defs (ba_ts 20 21) 30 31 4 ++
   [(8%nat, bound_def_1 rb_o 5 (PVp 0)); (9%nat, bound_def_2 rb_o 5 (PVp 0)); (10%nat, lb_clause [axiom (pos 30); axiom (pos 31); mkAx (PVp 0) false]);
    (11%nat, lb_clause [mkAx (PVp 0) true])]) 12 [] [].
Definition bf_p : pst := mkPst 12 1 [] [(mkAx (PVp 0) false, VObjAtLeast 0 5)] [((0, 5), (mkAx (PVp 0) false, 8, 9))]%nat [].
Definition bf_e : penc := mkPenc 0 8 false (fun b => if (b =? 4)%nat then Some [neg 3; neg 14; neg 15; neg 16] else None)
  (pe_details (rb_e 14 15 16)) (pe_next_higher (rb_e 14 15 16)) (fun _ => []).
Lemma bf_wok : wok bf_k bf_p.
Proof.
  assert (N : NoDup (map fst (k_all bf_k))) by (cbn; repeat constructor; cbn; intuition discriminate).
  constructor; [|exact Logic.I|reflexivity|].
  - split.
    + change (kof bf_k bf_p) with bf_k. revert N. generalize (k_all bf_k). intros l N i c c'. induction l as [|[j d] l IH]; [intros []|].
      cbn [map fst] in N. apply NoDup_cons_iff in N. destruct N as (N1 & N2). intros [X|X] [Y|Y].
      * congruence.
      * injection X as -> ->. exfalso. apply N1. exact (in_map fst _ _ Y).
      * injection Y as -> ->. exfalso. apply N1. exact (in_map fst _ _ X).
      * exact (IH N2 X Y).
    + apply Forall_forall. cbn. repeat (constructor; [cbn; lia|]). constructor.
  - intros e n He Hn. change (In e (k_all bf_k)) in He.
    assert (F : Forall (fun e => forallb (fun v => match v with PVs _ => true | PVp n => (n <? 1)%nat end) (cvars (snd e)) = true) (k_all bf_k)) by (repeat (constructor; [reflexivity|]); constructor).
    rewrite Forall_forall in F. specialize (F e He). rewrite forallb_forall in F. specialize (F _ Hn). apply Nat.ltb_lt in F. exact F.
Qed.
Example bf_run : exists b p, bos_step (ba_e 30 31 4) bf_e rb_o 0 5 0 None (Some 10%nat) [neg 30; neg 31] 11 (mkBst None None) bf_p = Some (b, p) /\
  steps_valid bf_k (ps_log p) /\ map fst (ps_reg p) = [[neg 3]; [neg 14]; [neg 15]; [neg 16]] /\
  forall a, proof_holds a (kof bf_k p) -> (icost rb_o (on_solver a) < 5)%nat.
Proof.
  destruct (C69_iteration_buffered bf_k [rb_o] bf_p (ba_e 30 31 4) bf_e rb_o (ba_ts 20 21) (pos 30) [pos 31] [neg 3; neg 14; neg 15; neg 16] 0 8 9 (axiom (pos 30)) 0 5 0 None 10 11 (mkBst None None))
    as (b & p & E & V & _ & _ & _ & _ & _ & X & _).
  - reflexivity.
  - reflexivity.
  - exact bf_wok.
  - intros i v l d1 d2 H. cbn in H. destruct (key_eqb (0, 5)%nat (i, v)) eqn:K; [|discriminate]. destruct (key_eqb_spec (0, 5)%nat (i, v)) as [K'|K']; [|discriminate].
    injection K' as <- <-. injection H as <- <- <-. exists rb_o, 0%nat. cbn. tauto.
  - intros o [<-|[]] _. reflexivity.
  - apply ba_wf. discriminate.
  - cbn. lia.
  - split; [apply (ba_out bf_k 20 21 30 31 4 1 (pos 30) 4 5); try discriminate; try lia; try reflexivity; cbn; tauto|]. split; [cbn; lia|].
    split; [apply (ba_out bf_k 20 21 30 31 4 2 (pos 31) 6 7); try discriminate; try lia; try reflexivity; cbn; tauto|]. split; [congruence|exact Logic.I].
  - repeat constructor; cbn; intuition discriminate.
  - discriminate.
  - reflexivity.
  - exists (pos 14), None, (Some 1%nat). split; [reflexivity|]. left. split; [cbn; lia|]. split; [exists 20%nat; split; [cbn; tauto|lia]|].
    exists (pos 14), None, (Some 1%nat). split; [reflexivity|]. right. split; [cbn; lia|]. split; [reflexivity|]. split; [exists 1%nat; split; [reflexivity|apply (rb_part _ _ _ 5); [cbn; tauto|cbn; lia]]|].
    exists (pos 15), None, (Some 2%nat). split; [reflexivity|]. right. split; [cbn; lia|]. split; [reflexivity|]. split; [exists 2%nat; split; [reflexivity|apply (rb_part _ _ _ 7); [cbn; tauto|cbn; lia]]|].
    exists (pos 16), None, (Some 3%nat). split; [reflexivity|]. right. split; [cbn; lia|]. split; [reflexivity|]. split; [exists 3%nat; split; [reflexivity|apply (rb_part _ _ _ 10); [cbn; tauto|cbn; lia]]|].
    exact Logic.I.
  - reflexivity.
  - intros H. cbn in H. lia.
  - exists (lb_clause [mkAx (PVp 0) true]). split; [cbn; tauto|]. apply clause_proper. repeat constructor. intros [].
  - exists (lb_clause [axiom (pos 30); axiom (pos 31); mkAx (PVp 0) false]). split; [cbn; tauto|]. apply clause_proper. repeat constructor; cbn; intuition discriminate.
  - exists b, p. split; [exact E|]. split; [exact V|]. split; [|exact X]. vm_compute in E. injection E as _ <-. reflexivity.
Qed.
(** the cut of the solution x0, x2 with costs 1 and 1 *)
Definition bg_o0 : objective := OUnweighted 0 1 [pos 0; pos 1] 0 0.
Definition bg_e (o1 o2 d : nat) : penc := mkPenc 0 2 true (pe_enforce_ub (ba_e o1 o2 d)) (pe_details (ba_e o1 o2 d)) S (fun _ => [pos o1; neg o2]).
Definition bg_c0 : cobj := mkCobj (bg_e 10 11 1) bg_o0 None 1.
Definition bg_c1 : cobj := mkCobj (bg_e 12 13 5) ba_o1 None 1.
Definition bg_k : chk := mkChk [] (ba_defs (ba_ts 0 1) 10 11 1 ++ ba_defs (ba_ts 2 3) 12 13 5) 9 [obj_order bg_o0; obj_order ba_o1] [].
Definition bg_w : assignment := [Some true; Some false; Some true; Some false].
Definition bg_fw : list (ax pv) := map axiom [pos 0; neg 1; pos 2; neg 3; pos 10; neg 11; pos 12; neg 13].
Lemma bg_vals : forall a : pv -> bool, ax_all a bg_fw -> a (PVs 0) = true /\ a (PVs 1) = false /\ a (PVs 2) = true /\ a (PVs 3) = false /\
  a (PVs 10) = true /\ a (PVs 11) = false /\ a (PVs 12) = true /\ a (PVs 13) = false.
Proof.
  intros a H. repeat split.
  - apply (pv_true a _ false). apply H. cbn. tauto.
  - apply (pv_true a _ true). apply H. cbn. tauto.
  - apply (pv_true a _ false). apply H. cbn. tauto.
  - apply (pv_true a _ true). apply H. cbn. tauto.
  - apply (pv_true a _ false). apply H. cbn. tauto.
  - apply (pv_true a _ true). apply H. cbn. tauto.
  - apply (pv_true a _ false). apply H. cbn. tauto.
  - apply (pv_true a _ true). apply H. cbn. tauto.
Qed.
Lemma bg_ready : ready bg_k [bg_c0; bg_c1] bg_w 3 14 (start bg_k) bg_fw.
Proof.
  constructor.
  - reflexivity.
  - apply start_wok.
    + cbn. repeat constructor; cbn; intuition discriminate.
    + cbn. repeat (constructor; [cbn; lia|]). constructor.
    + repeat (constructor; [reflexivity|]). constructor.
  - intros i v l d1 d2 H. discriminate.
  - intros x n [].
  - intros r Hr. split; [|intros []]. intros e He X. cbn in He. decompose [or] He; subst; cbn in X; decompose [or] X; try discriminate;
      match goal with H : PVs _ = PVs r |- _ => injection H as H; lia | H : False |- _ => destruct H end.
  - constructor; [|constructor; [|constructor]].
    + exists (obj_terms bg_o0). constructor; cbn [co_reform co_enc co_obj co_cost bg_c0 bg_e pe_buf_empty pe_nout].
      * split; reflexivity.
      * intros t Ht. apply in_map_iff in Ht. destruct Ht as (lw & <- & _). cbn [fst]. lia.
      * reflexivity.
      * intros _ v olit i d H. cbn [pe_details ba_e bg_e] in H.
        do 3 (try (destruct v as [|v]; try discriminate)); injection H as <- <- <-; eexists;
          (split; [vm_compute; tauto|]); intros a; cbn; unfold lb_val, ax_true; cbn; destruct (a (PVs 0)), (a (PVs 1)), (a (PVs 10)), (a (PVs 11)); reflexivity.
      * discriminate.
    + exists (obj_terms ba_o1). constructor; cbn [co_reform co_enc co_obj co_cost bg_c1 bg_e pe_buf_empty pe_nout].
      * split; reflexivity.
      * intros t Ht. apply in_map_iff in Ht. destruct Ht as (lw & <- & _). cbn [fst]. lia.
      * reflexivity.
      * intros _ v olit i d H. cbn [pe_details ba_e bg_e] in H.
        do 3 (try (destruct v as [|v]; try discriminate)); injection H as <- <- <-; eexists;
          (split; [vm_compute; tauto|]); intros a; cbn; unfold lb_val, ax_true; cbn; destruct (a (PVs 2)), (a (PVs 3)), (a (PVs 12)), (a (PVs 13)); reflexivity.
      * discriminate.
  - vm_compute. reflexivity.
  - intros l r H E. vm_compute in H. decompose [or] H; subst; try discriminate; try (injection E as <-; lia); contradiction.
  - exists (fun x => match x with PVs 0 | PVs 2 | PVs 10 | PVs 12 => true | _ => false end).
    intros l H. vm_compute in H. decompose [or] H; subst; try reflexivity. contradiction.
  - intros a Ha. apply bg_vals in Ha. destruct Ha as (A0 & A1 & A2 & A3 & A4 & A5 & A6 & A7). split.
    + intros e He. cbn in He. decompose [or] He; subst; try contradiction; unfold lb_holds; cbn; unfold ax_true; cbn; rewrite ?A0, ?A1, ?A2, ?A3, ?A4, ?A5, ?A6, ?A7; cbn; lia.
    + intros c [<-|[<-|[]]]; cbn; unfold lit_true; cbn; unfold on_solver; rewrite ?A0, ?A1, ?A2, ?A3; reflexivity.
  - constructor; [|constructor; [|constructor]]; intros _ a Ha; apply bg_vals in Ha; destruct Ha as (A0 & A1 & A2 & A3 & A4 & A5 & A6 & A7);
      (split; [discriminate|]); intros olit i _ H; cbn in H; injection H as <- <-; unfold ax_true; cbn; [rewrite A4|rewrite A6]; reflexivity.
  - apply (upt_step _ _ _ (wif_def (ba_ts 0 1) (axiom (pos 10)) 1) (axiom (pos 10))); [vm_compute; tauto| |].
    { intros a Ha Hd. assert (A1 : a (PVs 0) = true) by (apply (pv_true a _ false); apply Ha; vm_compute; tauto).
      unfold lb_holds in Hd. cbn in Hd. unfold ax_true in *. cbn in *. rewrite A1 in Hd. destruct (a (PVs 10)); [reflexivity|]. destruct (a (PVs 1)); cbn in Hd; lia. }
    apply (upt_step _ _ _ (wonly_def (ba_ts 0 1) (axiom (pos 11)) 2) (axiom (neg 11))); [vm_compute; tauto| |].
    { intros a Ha Hd. assert (A1 : a (PVs 1) = false) by (apply (pv_true a _ true); apply Ha; vm_compute; tauto).
      unfold lb_holds in Hd. cbn in Hd. unfold ax_true in *. cbn in *. rewrite A1 in Hd. destruct (a (PVs 11)); [|reflexivity]. destruct (a (PVs 0)); cbn in Hd; lia. }
    apply (upt_step _ _ _ (wif_def (ba_ts 2 3) (axiom (pos 12)) 1) (axiom (pos 12))); [vm_compute; tauto| |].
    { intros a Ha Hd. assert (A1 : a (PVs 2) = true) by (apply (pv_true a _ false); apply Ha; vm_compute; tauto).
      unfold lb_holds in Hd. cbn in Hd. unfold ax_true in *. cbn in *. rewrite A1 in Hd. destruct (a (PVs 12)); [reflexivity|]. destruct (a (PVs 3)); cbn in Hd; lia. }
    apply (upt_step _ _ _ (wonly_def (ba_ts 2 3) (axiom (pos 13)) 2) (axiom (neg 13))); [vm_compute; tauto| |].
    { intros a Ha Hd. assert (A1 : a (PVs 3) = false) by (apply (pv_true a _ true); apply Ha; vm_compute; tauto).
      unfold lb_holds in Hd. cbn in Hd. unfold ax_true in *. cbn in *. rewrite A1 in Hd. destruct (a (PVs 13)); [|reflexivity]. destruct (a (PVs 2)); cbn in Hd; lia. }
    apply upt_done. intros l. vm_compute. tauto.
Qed.
Example bg_cut : exists id p', certify_pmin_cut [bg_c0; bg_c1] bg_w 3 (start bg_k) = Some (id, p') /\ steps_valid bg_k (ps_log p') /\
  derived (kof bg_k p') id [axiom (neg 10); axiom (neg 12)].
Proof.
  destruct (C69_cut bg_k bg_c0 bg_c1 bg_w 3 14 (start bg_k) bg_fw (pos 10) (pos 12) (Some 1%nat) 2 (Some 5%nat) 6) as (id & p' & E & V & _ & _ & _ & _ & P).
  - exact bg_ready.
  - reflexivity.
  - reflexivity.
  - reflexivity.
  - repeat split; discriminate.
  - repeat split; discriminate.
  - discriminate.
  - cbn. lia.
  - reflexivity.
  - cbn. lia.
  - reflexivity.
  - intros c [<-|[<-|[]]]; cbn; lia.
  - exists id, p'. split; [exact E|]. split; [exact V|exact P].
Qed.

(** ** What goes wrong *)
(** A constant increasing objective (types.rs 449-455, 514, 604-606, 621-626): the step asks for an output above its value, which panics *)
Definition const_enc (c : nat) : penc := mkPenc c 0 true (fun _ => Some []) (fun _ => None) (fun v => v) (fun _ => []).
Definition bc_k : chk := mkChk [] (ba_defs (ba_ts 2 3) 12 13 5 ++ [(9%nat, lb_clause (map axiom [pos 13])); (10%nat, lb_clause (map axiom [neg 13]))]) 11 [] [].
Theorem C69_constant_refuted : exists k0 p e1 o1 ts1 first1 outs1 dec_cost lb_id pmin_cut,
  pe_buf_empty e1 = true /\ wok k0 p /\ w_wf ts1 /\ chain (kof k0 p) e1 ts1 dec_cost (first1 :: outs1) /\
  pe_enforce_ub e1 (dec_cost - 1) = Some (map lnot (first1 :: outs1)) /\ pmin_says (kof k0 p) (const_enc 0) 0 pmin_cut (axiom first1) [ax_not (axiom first1)] /\
  derived (kof k0 p) lb_id [axiom first1] /\
  bos_step (const_enc 0) e1 o1 0 dec_cost 0 None (Some lb_id) [] pmin_cut (mkBst None None) p = None.
Proof.
  exists bc_k, (start bc_k), ba_e1, ba_o1, (ba_ts 2 3), (pos 13), [], 2%nat, 9%nat, 10%nat. split; [reflexivity|]. split.
  { apply start_wok.
    - cbn. repeat constructor; cbn; intuition discriminate.
    - cbn. repeat (constructor; [cbn; lia|]). constructor.
    - repeat (constructor; [reflexivity|]). constructor. }
  split; [apply ba_wf; discriminate|]. split.
  { split; [|split; [congruence|exact Logic.I]]. apply (ba_out bc_k 2 3 12 13 5 2 (pos 13) 7 8); try discriminate; try lia; try reflexivity; cbn; tauto. }
  split; [reflexivity|]. split; [exists (lb_clause (map axiom [neg 13])); split; [cbn; tauto|apply (clause_proper (map axiom [neg 13])); repeat constructor; intros []]|].
  split; [exists (lb_clause (map axiom [pos 13])); split; [cbn; tauto|apply (clause_proper (map axiom [pos 13])); repeat constructor; intros []]|]. reflexivity.
Qed.
Print Assumptions C69_constant_refuted.

(** Buffered inputs of the increasing objective x0 + x1 + 10*x2: x2 is in the buffer, x10 is the output for 1. The bound of linear search says
    that x2 or x10 is true or the decreasing objective is at least 2. The lines written to shorten it talk about the wrong
    objective and are not accepted. *)
Definition bd_o0 : objective := OWeighted 0 [(pos 0, 1%nat); (pos 1, 1%nat); (pos 2, 10%nat)] 0 0.
Definition bd_o1 : objective := OUnweighted 0 1 [pos 3; pos 4] 1 0.
Definition bd_e0 : penc := mkPenc 0 2 false (fun b => match b with 0 => Some [neg 2; neg 10] | _ => None end)%nat
  (fun v => match v with 1 => Some (pos 10, (None, Some 1%nat)) | _ => None end)%nat S (fun _ => []).
Definition bd_k : chk := mkChk []
  ([(1%nat, wonly_def (ba_ts 0 1) (axiom (pos 10)) 1)] ++ ba_defs (ba_ts 3 4) 12 13 5 ++
   [(9%nat, lb_clause (map axiom [pos 2; pos 10; pos 13])); (10%nat, lb_clause (map axiom [neg 13]))]) 11 [obj_order bd_o0; obj_order bd_o1] [].
Theorem C69_increasing_buffered_refuted : exists k0 p e0 e1 o0 o1 ts1 outs0 first1 outs1 lb_id pmin_cut b' p',
  (* the assumptions bound the increasing objective by 0 *)
  pe_buf_empty e0 = false /\ pe_enforce_ub e0 0 = Some (map lnot outs0) /\ buf_from (kof k0 p) e0 o0 1 1 (map lnot outs0) /\
  pe_buf_empty e1 = true /\ wok k0 p /\ k_order (kof k0 p) = map obj_order [o0; o1] /\ w_wf ts1 /\ chain (kof k0 p) e1 ts1 2 (first1 :: outs1) /\
  pe_enforce_ub e1 1 = Some (map lnot (first1 :: outs1)) /\
  pmin_says (kof k0 p) e0 0 pmin_cut (axiom first1) [ax_not (axiom first1)] /\
  derived (kof k0 p) lb_id (map axiom outs0 ++ [axiom first1]) /\
  bos_step e0 e1 o1 0 2 0 None (Some lb_id) (map lnot outs0) pmin_cut (mkBst None None) p = Some (b', p') /\ ~ steps_valid k0 (ps_log p').
Proof.
  destruct (bos_step bd_e0 ba_e1 bd_o1 0 2 0 None (Some 9%nat) [neg 2; neg 10] 10 (mkBst None None) (start bd_k)) as [[b' p']|] eqn:E.
  2:{ vm_compute in E. discriminate. }
  exists bd_k, (start bd_k), bd_e0, ba_e1, bd_o0, bd_o1, (ba_ts 3 4), [pos 2; pos 10], (pos 13), [], 9%nat, 10%nat, b', p'.
  split; [reflexivity|]. split; [reflexivity|]. split.
  { exists (pos 10), None, (Some 1%nat). split; [reflexivity|]. left. split; [cbn; lia|]. split; [exists 10%nat; split; [cbn; tauto|lia]|].
    exists (pos 10), None, (Some 1%nat). split; [reflexivity|]. right. split; [cbn; lia|]. split; [reflexivity|]. split; [|exact Logic.I].
    exists 1%nat. split; [reflexivity|]. exists (wonly_def (ba_ts 0 1) (axiom (pos 10)) 1), (ba_ts 0 1), 1. split; [cbn; tauto|]. split; [|split; [lia|]].
    - intros a. unfold lb_val, wonly_def. cbn [lb_terms lb_bound]. rewrite lb_sum_app. cbn [lb_sum]. lia.
    - intros a. cbn. unfold ax_true, lit_true, on_solver. cbn. destruct (a (PVs 0)), (a (PVs 1)), (a (PVs 2)); cbn; lia. }
  split; [reflexivity|]. split.
  { apply start_wok.
    - cbn. repeat constructor; cbn; intuition discriminate.
    - cbn. repeat (constructor; [cbn; lia|]). constructor.
    - repeat (constructor; [reflexivity|]). constructor. }
  split; [reflexivity|]. split; [apply ba_wf; discriminate|]. split.
  { split; [|split; [congruence|exact Logic.I]]. apply (ba_out bd_k 3 4 12 13 5 2 (pos 13) 7 8); try discriminate; try lia; try reflexivity; cbn; tauto. }
  split; [reflexivity|]. split; [exists (lb_clause (map axiom [neg 13])); split; [cbn; tauto|apply (clause_proper (map axiom [neg 13])); repeat constructor; intros []]|].
  split; [exists (lb_clause (map axiom [pos 2; pos 10; pos 13])); split; [cbn; tauto|apply (clause_proper (map axiom [pos 2; pos 10; pos 13])); repeat constructor; cbn; intuition discriminate]|].
  split; [exact E|].
  assert (L : exists n, ps_log p' = firstn n (ps_log p') ++ SRup (lb_clause [axiom (pos 2); mkAx (PVp 0) false]) [CAbs 11] :: skipn (S n) (ps_log p') /\
     opt_all (map (id_get (k_all (steps_next bd_k (firstn n (ps_log p')))) (k_next (steps_next bd_k (firstn n (ps_log p'))))) [CAbs 11])
                = Some [bound_def_1 bd_o1 2 (PVp 0)]).
  { vm_compute in E. injection E as _ <-. exists 2%nat. split; vm_compute; reflexivity. }
  destruct L as (n & L & H). rewrite L. intros X. apply steps_valid_app in X. destruct X as (_ & (cs & X1 & X2) & _).
  rewrite H in X1. injection X1 as <-.
  pose proof (rup_sound _ _ X2 (fun _ => false)) as Y.
  assert (Z : lb_holds (fun _ => false) (lb_clause [axiom (pos 2); mkAx (PVp 0) false])).
  { apply Y. intros d [<-|[]]. apply bound_def_1_holds. vm_compute. lia. }
  apply lb_clause_holds in Z. destruct Z as (l & [<-|[<-|[]]] & T); discriminate.
Qed.
Print Assumptions C69_increasing_buffered_refuted.

(** The increasing objective is 4*x0 + 6*x1 + 10*x2. During linear search x2 is in the buffer, and x14 is the output of the rest for 10; the bound that is
    returned is about the bound literal of the proof. To bound the objective by 10, x2 is taken out of the buffer. The cut of the solution
    is then about the output x20 for 10 of the whole objective: the two do not cancel, and the constraint that is registered for the clause
    -x13 is a different one. *)
Definition be_o0 : objective := OWeighted 0 [(pos 0, 4%nat); (pos 1, 6%nat); (pos 2, 10%nat)] 0 0.
Definition be_o1 : objective := bd_o1.
Definition be_part : list (Z * ax pv) := [(4, axiom (pos 0)); (6, axiom (pos 1))].
Definition be_ts : list (Z * ax pv) := [(4, axiom (pos 0)); (6, axiom (pos 1)); (10, axiom (pos 2))].
(** before and after *)
Definition be_e : penc := mkPenc 0 3 false (fun _ => None) (fun v => match v with 10 => Some (pos 14, (None, Some 1%nat)) | _ => None end)%nat S (fun _ => []).
Definition be_e' : penc := mkPenc 0 6 true (fun b => match b with 10 => Some [neg 21] | _ => None end)%nat
  (fun v => match v with 10 => Some (pos 20, (Some 15%nat, Some 16%nat)) | 14 => Some (pos 21, (Some 17%nat, Some 18%nat)) | _ => None end)%nat
  (fun v => if v =? 10 then 14 else S v)%nat (fun _ => []).
Definition be_k : chk := mkChk []
  ([(1%nat, wonly_def be_part (axiom (pos 14)) 10); (2%nat, lb_clause (map axiom [pos 2; pos 14]))] ++ ba_defs (ba_ts 3 4) 12 13 5 ++
   [(15%nat, wif_def be_ts (axiom (pos 20)) 10); (16%nat, wonly_def be_ts (axiom (pos 20)) 10);
    (17%nat, wif_def be_ts (axiom (pos 21)) 14); (18%nat, wonly_def be_ts (axiom (pos 21)) 14);
    (19%nat, lb_clause (map axiom [pos 21; pos 13])); (20%nat, lb_clause (map axiom [neg 20; neg 13]))]) 21 [obj_order be_o0; obj_order be_o1] [].
Lemma be_wok : wok be_k (start be_k).
Proof.
  apply start_wok.
  - cbn. repeat constructor; cbn; intuition discriminate.
  - cbn. repeat (constructor; [cbn; lia|]). constructor.
  - repeat (constructor; [reflexivity|]). constructor.
Qed.
Lemma be_wf : w_wf be_ts.
Proof. split; [repeat constructor; cbn; intuition discriminate|]. intros t [<-|[<-|[<-|[]]]]; cbn; lia. Qed.
Lemma be_out : forall v o fi oi, pe_details be_e' v = Some (o, (Some fi, Some oi)) -> (0 < v <= 20)%nat -> (2 < lvar o)%nat ->
  In (fi, wif_def be_ts (axiom o) (Z.of_nat v)) (k_all be_k) -> In (oi, wonly_def be_ts (axiom o) (Z.of_nat v)) (k_all be_k) ->
  has_out be_k be_e' be_ts v o.
Proof.
  intros v o fi oi H Hv N0 I1 I2. assert (N : ~ In (PVs (lvar o)) (map ax_var (map snd be_ts))).
  { cbn. intros [X|[X|[X|[]]]]; injection X as X; lia. }
  assert (E : Z.of_nat v - Z.of_nat (pe_offset be_e') = Z.of_nat v) by (cbn [be_e' pe_offset]; lia).
  exists fi, oi. constructor; [exact H|cbn [be_e' pe_offset]; lia|rewrite E; change (wtot be_ts) with 20; lia|exact N| |]; rewrite E.
  - eexists. split; [exact I1|]. apply wif_concrete; [apply be_wf|change (wtot be_ts) with 20; lia|exact N].
  - eexists. split; [exact I2|]. apply wonly_concrete; [apply be_wf|lia|exact N].
Qed.
Theorem C69_drained_refuted : exists k0 p0 e0 e0' e1 o0 o1 ts0 ts1 core core_id inc_cost dec_cost x first0 first1 inc_id p lb_id pmin_cut b' p',
  (* linear search on the increasing objective, with buffered inputs *)
  wok k0 p0 /\ k_order (kof k0 p0) = map obj_order [o0; o1] /\ pe_buf_empty e0 = false /\ says (kof k0 p0) core_id (map axiom core) /\
  linsu_certify e0 1 o0 [] inc_cost core core_id p0 = Some (inc_id, p) /\ steps_valid k0 (ps_log p) /\ wok k0 p /\
  (* no buffered inputs any more; the hypotheses of the theorem, except that the bound is about another literal *)
  pe_buf_empty e0' = true /\ pe_buf_empty e1 = true /\ w_wf ts0 /\ w_wf ts1 /\
  has_out (kof k0 p) e0' ts0 inc_cost x /\ (inc_cost < pe_next_higher e0' inc_cost)%nat /\ chain (kof k0 p) e0' ts0 (pe_next_higher e0' inc_cost) [first0] /\
  chain (kof k0 p) e1 ts1 dec_cost [first1] /\ pe_enforce_ub e1 (dec_cost - 1) = Some [lnot first1] /\
  pmin_says (kof k0 p) e0' inc_cost pmin_cut (axiom x) [ax_not (axiom first1)] /\ derived (kof k0 p) lb_id [axiom first0; axiom first1] /\
  (forall a, proof_holds a (kof k0 p) -> ax_true a (axiom x) = true) /\
  bos_step e0' e1 o1 inc_cost dec_cost 0 (Some inc_id) (Some lb_id) [lnot first0] pmin_cut (mkBst None None) p = Some (b', p') /\
  (* the clause handed to the solver is not the constraint with its id *)
  exists id, In ([lnot first1], id) (ps_reg p') /\ ~ says (kof k0 p') id (map axiom [lnot first1]).
Proof.
  destruct (C67_lower_bound_buffered be_k [be_o0; be_o1] (start be_k) be_e 1 be_o0 [] [] [pos 2] (pos 14) (None, Some 1%nat) [pos 14] [pos 14] 10 2)
    as (inc_id & p & E & V & W & _ & _ & M & _ & _ & Y).
  - reflexivity.
  - exact be_wok.
  - reflexivity.
  - intros u v [<-|[<-|[]]] [<-|[<-|[]]] H; try reflexivity; discriminate.
  - left. reflexivity.
  - intros i v l d1 d2 H. discriminate.
  - reflexivity.
  - intros h [<-|[]]. split; [exists 10%nat; split; [cbn; tauto|lia]|cbn; lia].
  - split; [|exact Logic.I]. exists None, 1%nat. split; [reflexivity|]. exists (wonly_def be_part (axiom (pos 14)) 10), be_part, 10.
    split; [cbn; tauto|]. split; [|split; [lia|]].
    + intros a. unfold lb_val, wonly_def. cbn [lb_terms lb_bound]. rewrite lb_sum_app. cbn [lb_sum]. lia.
    + intros a. cbn. unfold ax_true, lit_true, on_solver. cbn. destruct (a (PVs 0)), (a (PVs 1)), (a (PVs 2)); cbn; lia.
  - repeat constructor.
  - cbn. lia.
  - constructor.
  - constructor.
  - repeat constructor.
  - discriminate.
  - intros b [].
  - apply says_clause. vm_compute. tauto.
  - change (map lnot [] ++ [pos 2] ++ [pos 14]) with [pos 2; pos 14] in E.
    destruct (bos_step be_e' ba_e1 be_o1 10 2 0 (Some inc_id) (Some 19%nat) [neg 21] 20 (mkBst None None) p) as [[b' p']|] eqn:E'.
    2:{ exfalso. pose proof E as Q. vm_compute in Q. injection Q as <- <-. vm_compute in E'. discriminate. }
    assert (W1 : w_wf (ba_ts 3 4)) by (apply ba_wf; discriminate).
    assert (O20 : has_out (kof be_k p) be_e' be_ts 10 (pos 20)).
    { apply (has_out_mono be_k); [exact M|]. apply (be_out 10 (pos 20) 15 16); [reflexivity|lia|cbn; lia|cbn; tauto|cbn; tauto]. }
    exists be_k, (start be_k), be_e, be_e', ba_e1, be_o0, be_o1, be_ts, (ba_ts 3 4), [pos 2; pos 14], 2%nat, 10%nat, 2%nat, (pos 20), (pos 21), (pos 13), inc_id, p, 19%nat, 20%nat, b', p'.
    split; [exact be_wok|]. split; [reflexivity|]. split; [reflexivity|]. split; [apply says_clause; vm_compute; tauto|]. split; [exact E|].
    split; [exact V|]. split; [exact W|]. split; [reflexivity|]. split; [reflexivity|]. split; [exact be_wf|]. split; [exact W1|].
    split; [exact O20|]. split; [cbn; lia|].
    split; [split; [|split; [congruence|exact Logic.I]]; apply (has_out_mono be_k); [exact M|]; apply (be_out 14 (pos 21) 17 18); [reflexivity|lia|cbn; lia|cbn; tauto|cbn; tauto]|].
    split; [split; [|split; [congruence|exact Logic.I]]; apply (has_out_mono be_k); [exact M|]; apply (ba_out be_k 3 4 12 13 5 2 (pos 13) 7 8); try discriminate; try lia; try reflexivity; cbn; tauto|].
    split; [reflexivity|].
    split; [apply (derived_mono be_k); [exact M|]; exists (lb_clause (map axiom [neg 20; neg 13])); split; [cbn; tauto|apply (clause_proper (map axiom [neg 20; neg 13])); repeat constructor; cbn; intuition discriminate]|].
    split; [apply (derived_mono be_k); [exact M|]; exists (lb_clause (map axiom [pos 21; pos 13])); split; [cbn; tauto|apply (clause_proper (map axiom [pos 21; pos 13])); repeat constructor; cbn; intuition discriminate]|].
    split.
    { intros a Ha. destruct O20 as (fi & oi & O). rewrite (out_means _ _ _ _ _ _ _ a be_wf O Ha). specialize (Y a Ha ltac:(intros b [])).
      revert Y. cbn. unfold ax_true, lit_true, on_solver. cbn. destruct (a (PVs 0)), (a (PVs 1)), (a (PVs 2)); cbn; lia. }
    split; [exact E'|].
    assert (Q : exists id, In ([neg 13], id) (ps_reg p') /\ forall C, In (id, C) (k_all (kof be_k p')) ->
      lb_holds (fun v => match v with PVs 20 => true | _ => false end) C -> False).
    { vm_compute in E. injection E as <- <-. vm_compute in E'. injection E' as _ <-. eexists. split; [left; reflexivity|].
      intros C H. vm_compute in H. decompose [or] H; try discriminate; try contradiction;
        match goal with H : _ = (_, C) |- _ => injection H as <-; intros T; vm_compute in T; apply T; reflexivity end. }
    destruct Q as (id & Q1 & Q2). exists id. split; [exact Q1|]. intros (C & IC & HC). apply (Q2 C IC). apply HC. exists (axiom (neg 13)). split; [left; reflexivity|reflexivity].
Qed.
Print Assumptions C69_drained_refuted.
