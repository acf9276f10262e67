(** * Inprocessing with MaxPre after core boosting (C83)

    [handed] (InproSpec.v) is the instance that is handed to MaxPre: the clauses with the
    definitions of the totalizer outputs, and soft clauses for the reformulated objectives. *)
From Coq Require Import List Bool Arith Lia ZArith.
From Verif Require Import Base BaseLemmas Spec MTypes MKernel MOll EncSpec TotSpec ApiSpec Inst ExInst CbSpec MPrepro MMain
  PreSpec TotInst MMaxPre MaxPreSpec MInpro InproSpec Init PreproThm PreProofThm InproThm.
From Verif Require PropCore.
Import ListNotations.

(** The handed instance is the instance of the user: soft clauses are units, its solutions are
    solutions of the user's instance at costs that are at least as good, and every solution of
    the user extends to one of it with exactly its costs. *)
Theorem C83_handed : forall I (SP : enc_spec I) T (TS : tot_spec SP T) re E i o al s cls os offs,
  inst_ok i -> lits_distinct i -> oracle_ok E -> core_nodup E -> reset_enc_ok TS re ->
  alg_new (I := I) al i o = Some s -> handed T E re s = Some (cls, os, offs) ->
  length os = length (in_objs i) /\ length offs = length (in_objs i) /\
  (forall so cw, In so os -> In cw (fst so) -> exists l, fst cw = [l]) /\
  (forall m, sat m cls -> feasible (in_cls i) m /\
     weakly_dominates (costs (in_objs i) m) (in_user (in_objs i) offs (soft_costs os m))) /\
  (forall a, feasible (in_cls i) a -> exists m, (forall v, v <= vm_max_enc (in_vm i) -> a v = m v) /\ sat m cls /\
     in_user (in_objs i) offs (soft_costs os m) = costs (in_objs i) a).
Proof.
  intros I SP T TS re E i o al s cls os offs HI HD HO HN HR Hn Hh.
  exact (handed_ok TS E HO HN re HR i o al s HI HD Hn cls os offs Hh).
Qed.
Print Assumptions C83_handed.

(** Its Pareto-optimal cost vectors are those of the user's instance. *)
Theorem C83_optimal : forall I (SP : enc_spec I) T (TS : tot_spec SP T) re E i o al s cls os offs,
  inst_ok i -> lits_distinct i -> oracle_ok E -> core_nodup E -> reset_enc_ok TS re ->
  alg_new (I := I) al i o = Some s -> handed T E re s = Some (cls, os, offs) ->
  forall c, pareto_optimal (in_cls i) (in_objs i) c <->
    exists z, soft_optimal cls os z /\ in_user (in_objs i) offs z = c.
Proof.
  intros I SP T TS re E i o al s cls os offs HI HD HO HN HR Hn Hh.
  exact (handed_optimal TS E HO HN re HR i o al s HI HD Hn cls os offs Hh).
Qed.
Print Assumptions C83_optimal.

(** With any correct MaxPre, a reconstructed solution of what MaxPre returns is a solution of the
    user's instance, at most as costly as MaxPre's instance says; and no solution of the user is
    lost. *)
Theorem C83_reconstructed : forall I (SP : enc_spec I) T (TS : tot_spec SP T) re E i o al s cls os offs out,
  inst_ok i -> lits_distinct i -> oracle_ok E -> core_nodup E -> reset_enc_ok TS re ->
  alg_new (I := I) al i o = Some s -> handed T E re s = Some (cls, os, offs) -> mp_ok cls os out ->
  (forall c sol, solves (mp_cls out) (mp_objs out) c sol ->
     forall a, extends a (mp_rec out sol) -> feasible (in_cls i) a /\
       weakly_dominates (costs (in_objs i) a) (in_user (in_objs i) offs c)) /\
  (forall a, feasible (in_cls i) a -> exists b, sat b (mp_cls out) /\
     weakly_dominates (in_user (in_objs i) offs (soft_costs (mp_objs out) b)) (costs (in_objs i) a)).
Proof.
  intros I SP T TS re E i o al s cls os offs out HI HD HO HN HR Hn Hh HM.
  destruct (handed_ok TS E HO HN re HR i o al s HI HD Hn cls os offs Hh) as (L1 & L2 & _ & Hs & Hc).
  assert (Hlen : forall os' a, length os' = length os -> length (soft_costs os' a) = length (in_objs i)).
  { intros os' a H. unfold soft_costs. rewrite map_length. congruence. }
  split.
  - intros c sol Hsol a Ha. destruct (mo_sound _ _ _ HM c sol Hsol) as (c' & Hc' & Hd).
    destruct (Hc' a Ha) as [H1 H2]. destruct (Hs a H1) as [H3 H4]. split; [exact H3|].
    eapply wd_trans; [exact H4|]. rewrite H2. apply in_user_le; [exact (io_ok _ HI)|exact L2| | |exact Hd].
    + rewrite <- H2. now apply Hlen.
    + rewrite <- (Forall2_len _ _ _ Hd), <- H2. now apply Hlen.
  - intros a Ha. destruct (Hc a Ha) as (m & _ & H1 & H2). destruct (mo_complete _ _ _ HM m H1) as (b & H3 & H4).
    exists b. split; [exact H3|]. rewrite <- H2. apply in_user_le; [exact (io_ok _ HI)|exact L2| | |exact H4].
    + apply Hlen, (mo_len _ _ _ HM).
    + now apply Hlen.
Qed.
Print Assumptions C83_reconstructed.

(** *** Examples *)
(** the law for resetting a database can be met *)
Lemma reset_law I (SP : enc_spec I) T (TS : tot_spec SP T) : reset_enc_ok TS (ti_reset T).
Proof.
  intros d. destruct (tb_reset_ok SP T TS d) as (H1 & H2 & H3 & H4 & H5 & H6).
  split; [exact H1|]. split; [intros v; apply H2|]. split; [intros v H; destruct (H3 v H)|].
  split; [intros v H; destruct (H4 v H)|]. split; [intros m _; apply H5|exact H6].
Qed.
Definition ip_opts : kopts := PropCore.cb_kopts NoEnum true false false false.
Definition ex_handed al i := match alg_new (I := GI) al i ip_opts with
  | Some s => handed TI (env true 300) (ti_reset TI) s | None => None end.
Example C83_example : ex_handed APMinimal ex_inst = Some
  ([[pos 0; pos 1]; [pos 1; pos 2]; [pos 0; pos 2; pos 3];
    [pos 14; pos 1; pos 3; neg 0]; [pos 14; neg 1; pos 3; pos 0]; [pos 14; neg 1; pos 3; neg 0];
    [pos 14; neg 1; neg 3; neg 0]; [pos 15; neg 1; pos 3; neg 0]],
   [([([neg 1], 1); ([pos 3], 1); ([neg 14], 1); ([neg 15], 1)], 0%Z); ([([pos 0], 1); ([pos 1], 1); ([neg 3], 1)], 0%Z)],
   [1; 0]).
Proof. vm_compute. reflexivity. Qed.
Definition id_ip : inprocessor := fun cls os => mkIp (mkMp cls os (fun s => s)) (length cls) 0.
Definition ip_boosted al i ip : option (res bool * res unit * list (list Z)) :=
  match alg_new (I := GI) al i ip_opts with
  | Some s =>
      match alg_core_boost_inpro TI (env true 300) (ti_reset TI) al ip s with
      | (Done true, s1) => let '(r, s2) := alg_solve al (env true 300) lims_none s1 in
          Some (Done true, r, map nd_costs (s_front s2))
      | (r, s1) => Some (r, Done tt, map nd_costs (s_front s1))
      end
  | None => None
  end.
Example C83_example_runs : map (fun al => ip_boosted al ex_inst id_ip) [APMinimal; ALowerBounding; ABiOptSat] =
  map (fun f => Some (Done true, Done tt, f))
    [[[3; 0]; [1; 1]; [5; (-1)]]; [[3; 0]; [1; 1]; [5; (-1)]]; [[1; 1]; [3; 0]; [5; (-1)]]]%Z.
Proof. vm_compute. reflexivity. Qed.

(** ** Solutions are not reconstructed (refuted)
    After inprocessing the oracle solves MaxPre's instance, but what it finds is reported as it
    is.  Here MaxPre only drops a unit clause; every algorithm reports solutions that violate it. *)
Definition nr_i : inst := mkInst [[pos 1; pos 2]; [pos 0]] [([(pos 1, 1)], 0%Z); ([(pos 2, 1)], 0%Z)] (mkVm 3 2 2).
Definition nr_out (os : list soft_obj) : mp_out :=
  mkMp [[pos 1; pos 2]] os (fun sol => Some true :: match sol with [] => [] | _ :: r => r end).
Definition nr_ip : inprocessor := fun _ os => mkIp (nr_out os) 1 1.
Definition nr_os : list soft_obj := [([([neg 1], 1)], 0%Z); ([([neg 2], 1)], 0%Z)].
Lemma nr_ok : inst_ok nr_i /\ lits_distinct nr_i.
Proof.
  split.
  - constructor.
    + cbn. lia.
    + cbn. lia.
    + intros v H. cbn in *. lia.
    + intros r v [<-|[<-|[]]] H; cbn in *; lia.
    + constructor; [|constructor; [|constructor]].
      * split; [left; repeat constructor; cbn; intuition discriminate|]. right. exists (pos 1, 1). split; [now left|discriminate].
      * split; [left; repeat constructor; cbn; intuition discriminate|]. right. exists (pos 2, 1). split; [now left|discriminate].
    + repeat constructor; cbn; unfold isize_max, isize_min; lia.
  - intros r [<-|[<-|[]]]; repeat constructor; cbn; intuition discriminate.
Qed.
Lemma nr_mp : mp_ok (in_cls nr_i) nr_os (nr_out nr_os).
Proof.
  constructor.
  - reflexivity.
  - intros o cw [<-|[<-|[]]] [<-|[]]; cbn [fst]; eauto.
  - constructor; [|constructor; [|constructor]]; (split; [|split; [|split]]).
    + intros cw [<-|[]]; discriminate.
    + left. repeat constructor; cbn; intuition discriminate.
    + right. exists ([neg 1], 1). split; [now left|discriminate].
    + cbn. unfold isize_max, isize_min. lia.
    + intros cw [<-|[]]; discriminate.
    + left. repeat constructor; cbn; intuition discriminate.
    + right. exists ([neg 2], 1). split; [now left|discriminate].
    + cbn. unfold isize_max, isize_min. lia.
  - intros c sol Hs. exists c. split; [|apply wd_refl]. intros a Ha.
    set (b := fun u => match u with 0 => match nth_error sol 0 with Some (Some x) => x | _ => false end | _ => a u end).
    assert (Hb : extends b sol).
    { intros u x Hu. unfold b. destruct u as [|u]; [now rewrite Hu|]. apply (Ha (S u) x). cbn [nr_out mp_rec nth_error].
      destruct sol as [|y sol]; [discriminate|exact Hu]. }
    destruct (Hs b Hb) as [H1 H2]. split.
    + intros cl [<-|[<-|[]]].
      * exact (H1 _ (or_introl eq_refl)).
      * unfold clause_true. cbn. unfold lit_true. cbn. now rewrite (Ha 0 true eq_refl).
    + rewrite <- H2. reflexivity.
  - intros a Ha. exists a. split; [|apply wd_refl]. intros cl [<-|[]]. apply Ha. now left.
Qed.
(** the answers of every algorithm *)
Definition nr_front al : option (front assignment) :=
  match alg_new (I := GI) al nr_i ip_opts with
  | Some s =>
      match alg_core_boost_inpro TI (env true 300) (ti_reset TI) al nr_ip s with
      | (Done true, s1) =>
          match alg_solve al (env true 300) lims_none s1 with
          | (Done tt, s2) => Some (s_front s2)
          | _ => None
          end
      | _ => None
      end
  | None => None
  end.
Theorem C83_not_reconstructed_refuted : exists i E ip,
  inst_ok i /\ lits_distinct i /\ oracle_ok E /\ core_nodup E /\ calm E /\
  forall al, exists s cls os offs s1 s2 nd sol,
    alg_new (I := GI) al i ip_opts = Some s /\ handed TI E (ti_reset TI) s = Some (cls, os, offs) /\
    mp_ok cls os (ip_mp (ip cls os)) /\
    alg_core_boost_inpro TI E (ti_reset TI) al ip s = (Done true, s1) /\
    alg_solve al E lims_none s1 = (Done tt, s2) /\
    In nd (s_front s2) /\ In sol (nd_sols nd) /\
    (forall a, extends a sol -> ~ feasible (in_cls i) a).
Proof.
  exists nr_i, (env true 300), nr_ip. destruct nr_ok as [H1 H2].
  split; [exact H1|]. split; [exact H2|]. split; [exact (brute_ok true 300)|]. split; [exact (brute_core_nodup true 300)|].
  split; [apply env_calm|]. intros al.
  assert (Hh : ex_handed al nr_i = Some (in_cls nr_i, nr_os, [0; 0])) by (destruct al; vm_compute; reflexivity).
  assert (Hf : nr_front al = Some [mkNd [0; 1]%Z [[Some false; Some false; Some true]];
    mkNd [1; 0]%Z [[Some false; Some true; Some false]]]) by (destruct al; vm_compute; reflexivity).
  unfold ex_handed in Hh. unfold nr_front in Hf. destruct (alg_new al nr_i ip_opts) as [s|] eqn:en; [|discriminate].
  destruct (alg_core_boost_inpro TI (env true 300) (ti_reset TI) al nr_ip s) as [[[|]|x] s1] eqn:eb; try discriminate.
  destruct (alg_solve al (env true 300) lims_none s1) as [[[]|x] s2] eqn:es; try discriminate.
  injection Hf as Hf.
  exists s, (in_cls nr_i), nr_os, [0; 0], s1, s2, (mkNd [0; 1]%Z [[Some false; Some false; Some true]]), [Some false; Some false; Some true].
  split; [reflexivity|]. split; [exact Hh|]. split; [exact nr_mp|]. split; [exact eb|]. split; [exact es|].
  split; [rewrite Hf; now left|]. split; [now left|].
  intros a Ha Hs. specialize (Hs [pos 0] (or_intror (or_introl eq_refl))). unfold clause_true in Hs. cbn in Hs.
  unfold lit_true in Hs. cbn in Hs. rewrite (Ha 0 false eq_refl) in Hs. discriminate.
Qed.
Print Assumptions C83_not_reconstructed_refuted.

(** ** Objectives without soft clauses (refuted)
    An objective of which core boosting leaves nothing gets no encoding at all, so that the
    encodings no longer belong to the objectives.  Here the first objective is fixed and MaxPre
    returns its input: BiOptSat panics in core boosting, the others when they solve. *)
Definition ns_i : inst := mkInst [[pos 0]; [pos 1; pos 2]]
  [([(pos 0, 1)], 0%Z); ([(pos 2, 1); (pos 1, 1)], 0%Z)] (mkVm 3 2 2).
Lemma ns_ok : inst_ok ns_i /\ lits_distinct ns_i.
Proof.
  split.
  - constructor.
    + cbn. lia.
    + cbn. lia.
    + intros v H. cbn in *. lia.
    + intros r v [<-|[<-|[]]] H; cbn in *; lia.
    + constructor; [|constructor; [|constructor]].
      * split; [left; repeat constructor; cbn; intuition discriminate|]. right. exists (pos 0, 1). split; [now left|discriminate].
      * split; [left; repeat constructor; cbn; intuition discriminate|]. right. exists (pos 2, 1). split; [now left|discriminate].
    + repeat constructor; cbn; unfold isize_max, isize_min; lia.
  - intros r [<-|[<-|[]]]; repeat constructor; cbn; intuition discriminate.
Qed.
Theorem C83_no_softs_refuted : exists i E,
  inst_ok i /\ lits_distinct i /\ oracle_ok E /\ core_nodup E /\ calm E /\ (exists a, feasible (in_cls i) a) /\
  forall al, exists s r s1, alg_new (I := GI) al i ip_opts = Some s /\
    alg_core_boost_inpro TI E (ti_reset TI) al id_ip s = (r, s1) /\
    (r = Exit EPanic \/ (r = Done true /\ exists s2, alg_solve al E lims_none s1 = (Exit EPanic, s2) /\ s_front s2 = [])).
Proof.
  exists ns_i, (env true 300). destruct ns_ok as [H1 H2].
  split; [exact H1|]. split; [exact H2|]. split; [exact (brute_ok true 300)|]. split; [exact (brute_core_nodup true 300)|].
  split; [apply env_calm|]. split.
  { exists (fun _ => true). intros c [<-|[<-|[]]]; reflexivity. }
  intros al.
  assert (Hf : match alg_new (I := GI) al ns_i ip_opts with
    | Some s => match alg_core_boost_inpro TI (env true 300) (ti_reset TI) al id_ip s with
      | (Exit EPanic, _) => True
      | (Done true, s1) => match alg_solve al (env true 300) lims_none s1 with
          | (Exit EPanic, s2) => s_front s2 = [] | _ => False end
      | _ => False end
    | None => False end) by (destruct al; vm_compute; auto).
  destruct (alg_new al ns_i ip_opts) as [s|] eqn:en; [|destruct Hf].
  destruct (alg_core_boost_inpro TI (env true 300) (ti_reset TI) al id_ip s) as [r s1] eqn:eb.
  exists s, r, s1. split; [reflexivity|]. split; [exact eb|].
  destruct r as [[|]|[| | |]]; try (now destruct Hf); [|now left].
  right. split; [reflexivity|]. destruct (alg_solve al (env true 300) lims_none s1) as [[[]|[| | |]] s2]; try (now destruct Hf).
  exists s2. auto.
Qed.
Print Assumptions C83_no_softs_refuted.
Example C83_no_softs_values : map (fun al => ip_boosted al ns_i id_ip) [APMinimal; ALowerBounding; ABiOptSat] =
  [Some (Done true, Exit EPanic, []); Some (Done true, Exit EPanic, []); Some (Exit EPanic, Done tt, [])].
Proof. vm_compute. reflexivity. Qed.
