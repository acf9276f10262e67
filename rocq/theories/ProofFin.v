(** * What an accepted proof guarantees about the reported front *)
From Coq Require Import List Arith ZArith Lia Bool.
From Verif Require Import Base BaseLemmas Spec MTypes MKernel MPMinimal MPrepro EncSpec Sem Kern Init ApiSpec Ext VeriPB VeriThm MProofs ProofThm ProofRun ProofCut ProofCert.
Import ListNotations.

(** solutions of the core constraints are solutions of the input *)
Lemma step_core : forall F k s, ids_ok k -> (forall a, db_holds a (k_core k) -> db_holds a F) -> step_valid k s ->
  forall a, db_holds a (k_core (step_next k s)) -> db_holds a F.
Proof.
  intros F k s Hid H Hv a. destruct s as [p|c hs|c w gs|ls full|ids|ids gs]; cbn [step_next step_valid] in *.
  - destruct (pol_eval pv_eqd (id_get (k_all k) (k_next k)) p); exact (H a).
  - exact (H a).
  - exact (H a).
  - cbn [k_core]. intros Ha. apply H. intros e He. apply Ha. right. exact He.
  - cbn [k_core]. intros Ha. apply H. intros e He. apply Ha. apply in_or_app. right. exact He.
  - cbn [k_core]. intros Ha. apply H. eapply (del_sound (k_order k)); [|exact Hv|exact Ha].
    intros i c c' X Y. destruct Hid as (U & _). apply (U i); apply in_k_all; left; assumption.
Qed.
Definition excl_ok (F : list entry) (k : chk) : Prop :=
  forall ls, In ls (k_excl k) -> exists a, ax_all a ls /\ db_holds a F.
Lemma step_excl : forall F k s, (forall a, db_holds a (k_core k) -> db_holds a F) -> step_valid k s ->
  excl_ok F k -> excl_ok F (step_next k s).
Proof.
  intros F k s H Hv He. destruct s as [p|c hs|c w gs|ls full|ids|ids gs]; cbn [step_next step_valid] in *; try exact He.
  - destruct (pol_eval pv_eqd (id_get (k_all k) (k_next k)) p); exact He.
  - intros x [<-|Hx]; [|exact (He x Hx)]. destruct Hv as (Hu & a & Ha & Hdb). exists a. split.
    + intros l Hl. apply Ha. exact (up_to_incl _ _ _ Hu l Hl).
    + apply H. intros e Hi. apply Hdb. apply in_k_all. left. exact Hi.
Qed.
Lemma steps_excl : forall F ss k, ids_ok k -> (forall a, db_holds a (k_core k) -> db_holds a F) -> steps_valid k ss ->
  excl_ok F k -> excl_ok F (steps_next k ss) /\ forall a, db_holds a (k_core (steps_next k ss)) -> db_holds a F.
Proof.
  intros F ss. induction ss as [|s ss IH]; intros k Hid Hc Hv He; cbn [steps_next steps_valid] in *; [tauto|].
  destruct Hv as (Hs & Hr). apply IH; [apply step_ids; exact Hid|apply step_core; assumption|exact Hr|apply step_excl; assumption].
Qed.

(** The initial state *)
Lemma number_in : forall {A} (l : list A) n i x, In (i, x) (number n l) -> (n <= i < n + length l)%nat /\ nth_error l (i - n) = Some x.
Proof.
  intros A l. induction l as [|y l IH]; intros n i x H; [destruct H|]. cbn [number] in H. destruct H as [H|H].
  - injection H as <- <-. rewrite Nat.sub_diag. cbn [length nth_error]. split; [lia|reflexivity].
  - apply IH in H. destruct H as (H1 & H2). cbn [length]. split; [lia|]. replace (i - n)%nat with (S (i - S n)) by lia. exact H2.
Qed.
Lemma number_all : forall {A} (l : list A) n x, In x l -> exists i, In (i, x) (number n l).
Proof.
  intros A l. induction l as [|y l IH]; intros n x H; [destruct H|]. destruct H as [->|H].
  - exists n. left. reflexivity.
  - destruct (IH (S n) x H) as (i & Hi). exists i. right. exact Hi.
Qed.
Lemma init_ids : forall cls objs, ids_ok (init_chk cls objs).
Proof.
  intros cls objs. unfold ids_ok, init_chk, k_all. cbn [k_core k_der k_next]. rewrite app_nil_r. split.
  - intros i c c' X Y. apply number_in in X. apply number_in in Y. destruct X as (_ & X), Y as (_ & Y). congruence.
  - intros [i c] X. apply number_in in X. rewrite map_length in X. cbn [fst]. lia.
Qed.
Lemma clause_pb_holds : forall (a : pv -> bool) c, lb_holds a (clause_pb c) <-> clause_true (on_solver a) c = true.
Proof.
  intros a c. unfold clause_pb. rewrite lb_clause_holds. unfold clause_true. rewrite existsb_exists. split.
  - intros (l & Hl & Ht). apply in_map_iff in Hl. destruct Hl as (x & <- & Hx). exists x. rewrite axiom_true in Ht. tauto.
  - intros (x & Hx & Ht). exists (axiom x). split; [apply in_map; exact Hx|]. rewrite axiom_true. exact Ht.
Qed.
Lemma init_holds : forall (a : pv -> bool) cls objs, db_holds a (k_core (init_chk cls objs)) <-> sat (on_solver a) cls.
Proof.
  intros a cls objs. unfold init_chk. cbn [k_core]. unfold sat. split.
  - intros H c Hc. apply clause_pb_holds. destruct (number_all (map clause_pb cls) 1 (clause_pb c)) as (i & Hi).
    + apply in_map. exact Hc.
    + exact (H _ Hi).
  - intros H [i x] He. apply number_in in He. destruct He as (_ & He). apply nth_error_In in He. apply in_map_iff in He.
    destruct He as (c & <- & Hc). cbn [snd]. apply clause_pb_holds. exact (H c Hc).
Qed.
Lemma init_wok : forall cls objs vmap, wok (init_chk cls objs) (mkPst (S (length cls)) 0 [] vmap [] []).
Proof.
  intros cls objs vmap. constructor; cbn [ps_log kof steps_next].
  - apply init_ids.
  - exact Logic.I.
  - reflexivity.
  - intros [i x] n He. unfold k_all, init_chk in He. cbn [kof steps_next k_core k_der] in He. unfold kof in He. cbn [steps_next ps_log k_core k_der] in He.
    rewrite app_nil_r in He. apply number_in in He. destruct He as (_ & He). apply nth_error_In in He. apply in_map_iff in He.
    destruct He as (c & <- & _). cbn [snd]. unfold cvars, clause_pb, lb_clause. cbn [lb_terms]. rewrite !map_map. intros X.
    apply in_map_iff in X. destruct X as (l & El & _). discriminate.
Qed.

(** literals of the excluded solutions that speak about solver variables *)
Definition agrees_with (b : asg) (ls : list (ax pv)) : Prop :=
  forall v s, In (mkAx (PVs v) s) ls -> b v = negb s.
Definition fixes_objs (rs : list raw_obj) (ls : list (ax pv)) : Prop :=
  forall b1 b2, agrees_with b1 ls -> agrees_with b2 ls -> costs rs b1 = costs rs b2.
Lemma ax_all_agrees : forall (a : pv -> bool) ls, ax_all a ls -> agrees_with (on_solver a) ls.
Proof.
  intros a ls H v s Hi. pose proof (H _ Hi) as X. unfold ax_true in X. cbn [ax_neg ax_var] in X. unfold on_solver.
  destruct s, (a (PVs v)); cbn in *; congruence.
Qed.

Theorem accepted_front : forall rs cls ss,
  Forall obj_ok rs ->
  let k := init_chk cls (build_objs 0 rs) in
  steps_valid k ss ->
  (exists e, In e (k_all (steps_next k ss)) /\ contradictory (snd e)) ->
  (forall ls, In ls (k_excl (steps_next k ss)) -> fixes_objs rs ls) ->
  forall a, sat a cls ->
  exists ls s, In ls (k_excl (steps_next k ss)) /\ agrees_with s ls /\ sat s cls /\
    weakly_dominates (costs rs s) (costs rs a).
Proof.
  intros rs cls ss Hok k Hv Hc Hfix a Ha. set (objs := build_objs 0 rs) in *.
  assert (Hord : map fst (objectives_as_order objs) = map obj_order objs) by apply order_fst.
  assert (Hre : forall x, ord_holds (map obj_order objs) x x).
  { intros x. rewrite <- Hord. apply order_refl; [apply order_accepted|]. intros c p. apply order_no_w. }
  assert (Htr : forall x y z, ord_holds (map obj_order objs) x y -> ord_holds (map obj_order objs) y z -> ord_holds (map obj_order objs) x z).
  { intros x y z. rewrite <- Hord. apply order_transitive; [apply order_accepted|]. intros c p. apply order_no_w. }
  set (F := number 1 (map clause_pb cls)).
  assert (Ek : k = mkChk F [] (S (length cls)) (map obj_order objs) []).
  { unfold k, init_chk. rewrite Hord. reflexivity. }
  set (a' := fun x : pv => match x with PVs v => a v | PVp _ => false end).
  assert (HF : db_holds a' F) by (apply (init_holds a' cls objs); exact Ha).
  rewrite Ek in Hv, Hc.
  pose proof (accepted_covers (map obj_order objs) Hre Htr F (S (length cls)) ss) as X.
  rewrite <- Ek in X, Hv, Hc. specialize (X (init_ids cls objs) Hv Hc a' HF).
  destruct X as (ls & b & Hls & Hb & Ho).
  destruct (steps_excl F ss k (init_ids cls objs)) as (He & _).
  - intros x Hx. exact Hx.
  - exact Hv.
  - intros x []. 
  - destruct (He ls Hls) as (s & Hs & HsF). exists ls, (on_solver s). split; [exact Hls|].
    split; [apply ax_all_agrees; exact Hs|]. split; [apply (init_holds s cls objs); exact HsF|].
    rewrite (Hfix ls Hls (on_solver s) (on_solver b)); [|apply ax_all_agrees; exact Hs|apply ax_all_agrees; exact Hb].
    apply (order_meaning rs 0 (on_solver b) a Hok). exact Ho.
Qed.

(** an excluded solution that decides all objective literals fixes the costs *)
Lemma decides_fixes : forall rs ls,
  (forall r l w, In r rs -> In (l, w) (fst r) -> exists s, In (mkAx (PVs (lvar l)) s) ls) ->
  fixes_objs rs ls.
Proof.
  intros rs ls H b1 b2 H1 H2. unfold costs. apply map_ext_in. intros r Hr. unfold obj_value. f_equal. f_equal.
  apply wsum_ext. intros [l w] Hl. cbn [fst]. destruct (H r l w Hr Hl) as (s & Hs).
  unfold lit_true. rewrite (H1 _ _ Hs), (H2 _ _ Hs). reflexivity.
Qed.

Lemma weak_antisym : forall c d, weakly_dominates c d -> weakly_dominates d c -> c = d.
Proof.
  intros c d H. induction H as [|x y c d Hx H IH]; intros G; [reflexivity|]. inversion G; subst. f_equal; [lia|apply IH; assumption].
Qed.
(** every point of the Pareto front is the cost of an excluded solution *)
Corollary accepted_front_complete : forall rs cls ss c,
  Forall obj_ok rs ->
  let k := init_chk cls (build_objs 0 rs) in
  steps_valid k ss ->
  (exists e, In e (k_all (steps_next k ss)) /\ contradictory (snd e)) ->
  (forall ls, In ls (k_excl (steps_next k ss)) -> fixes_objs rs ls) ->
  pareto_optimal cls rs c ->
  exists ls, In ls (k_excl (steps_next k ss)) /\ forall s, agrees_with s ls -> costs rs s = c.
Proof.
  intros rs cls ss c Hok k Hv Hc Hfix ((a & Ha & Ea) & Hopt).
  destruct (accepted_front rs cls ss Hok Hv Hc Hfix a Ha) as (ls & s & Hls & He & Hs & Hd).
  exists ls. split; [exact Hls|]. intros s' He'. rewrite (Hfix ls Hls s' s He' He). rewrite Ea in Hd.
  specialize (Hopt s Hs). unfold dominates in Hopt.
  destruct (list_eq_dec Z.eq_dec (costs rs s) c) as [E|N]; [exact E|]. exfalso. apply Hopt. split; assumption.
Qed.
