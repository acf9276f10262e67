(** * Proof logging from the parsed problem on: proofs *)
From Coq Require Import List Arith ZArith Lia Bool.
From Verif Require Import Spec ApiSpec Base BaseLemmas Sem Ext MTypes MKernel MPMinimal MPrepro PreSpec PreproThm MOll VeriPB VeriThm MProofs ProofThm ProofRun ProofCut ProofCert ProofFin TracerThm MReform ReformSpec MProofAlg ReifSpec BlockSpec BlockThm BosSpec RunSpec RunThm RunSol BosRunSpec BosRunThm BoostSpec BoostThm MProofRun FrontThm MProofBos BosFrontThm PropBosFront MProofPre PreProofSpec.
Import ListNotations.
Local Open Scope nat_scope.

(** ** Any start *)
Record proof_start (k0 : chk) (n : nat) (cls : list clause) (rs : list raw_obj) (p : pst) : Prop := mkStart {
  st_wok : wok k0 p;
  st_new : new_from k0 p (S n);
  st_order : k_order (kof k0 p) = map obj_order (build_objs 0 rs);
  st_bounds : ps_bounds p = [];
  st_vmap : ps_vmap p = [];
  st_excl : k_excl (kof k0 p) = [];
  st_reg : forall c id, In (c, id) (ps_reg p) -> was_clause k0 p c id;
  st_sat : forall a, sat (on_solver a) cls -> proof_holds a (kof k0 p)
}.
Theorem start_gen : forall k0 n cls rs cs p, inst_vars n cls rs -> map co_obj cs = build_objs 0 rs ->
  (forall c b, In c cs -> pe_extend (co_enc c) b = []) -> enc_fine (k_all (kof k0 p)) cs -> proof_start k0 n cls rs p ->
  run_ok k0 n (inst_sol n cls) (mkRst cs (S n) p [] []).
Proof.
  intros k0 n cls rs cs p (Hcv & Hov) Eo Ext Hf [W Hnew Hord Ebd Evm Eex Hreg Hst].
  assert (Hobj : forall c l w, In c cs -> In (l, w) (obj_iter (co_obj c)) -> lvar l <= n).
  { intros c l w Hc Hl. assert (X : In (co_obj c) (build_objs 0 rs)) by (rewrite <- Eo; apply in_map; exact Hc).
    destruct (build_lits rs 0 _ l w X Hl) as (r & w' & Hr & Hin). exact (Hov r l w' Hr Hin). }
  rewrite <- Eo in Hord.
  constructor; cbn [r_cs r_nv r_p r_del r_done]; try assumption.
  - intros i v l d1 d2 H. rewrite Ebd in H. discriminate.
  - intros x m H. rewrite Evm in H. destruct H.
  - lia.
  - intros i c H. apply (build_idx rs). rewrite <- Eo. apply map_nth_error. exact H.
  - rewrite rm_nil. exact Hf.
  - intros i [].
  - intros e _ [].
  - intros key l d1 d2 H. rewrite Ebd in H. discriminate.
  - intros b (T & Hsat) _.
    destruct (fix_witness_nil (map co_enc (for_sol cs b)) (map co_cost (for_sol cs b)) b) as (fw & Ef & Hfw).
    { intros e He. rewrite for_sol_enc in He. apply in_map_iff in He. destruct He as (c & <- & Hc). exact (Ext c b Hc). }
    assert (Hval : forall a, ax_all a fw -> forall x, x <= n -> a (PVs x) = asg_of b x).
    { intros a Ha x Hx. assert (X : ax_true a (axiom (mkLit x (negb (asg_of b x)))) = true) by (apply Ha; apply Hfw; apply in_map; apply (total_lit n); assumption).
      unfold ax_true in X. cbn [axiom ax_var ax_neg lvar lneg] in X. destruct (asg_of b x), (a (PVs x)); cbn in X; congruence. }
    assert (Hcost : forall a, ax_all a fw -> forall c, In c cs -> icost (co_obj c) (on_solver a) = icost (co_obj c) (asg_of b)).
    { intros a Ha c Hc. apply (RunThm.cost_of _ n); [intros l w; exact (Hobj c l w Hc)|exact (Hval a Ha)]. }
    assert (Hph : forall a, ax_all a fw -> proof_holds a (kof k0 p)).
    { intros a Ha. apply Hst. apply (sat_ext cls n (asg_of b) (on_solver a) Hcv); [|exact Hsat]. intros x Hx. unfold on_solver. symmetry. exact (Hval a Ha x Hx). }
    assert (Hup : forall ds : list pconstr, up_to ds (map axiom (sol_lits (truncate b n))) fw).
    { intros ds. rewrite (total_trunc n b T). apply upt_done. exact Hfw. }
    exists fw. constructor; [constructor| | | |]; try assumption.
    + rewrite for_sol_obj. exact Hord.
    + intros i v l d1 d2 H. rewrite Ebd in H. discriminate.
    + intros x m H. rewrite Evm in H. destruct H.
    + rewrite <- for_sol_ok. exact (proj1 Hf).
    + rewrite Evm. exact Ef.
    + intros l r Hl E. apply Hfw in Hl. apply in_map_iff in Hl. destruct Hl as (x & <- & Hx). cbn [axiom ax_var] in E. injection E as <-.
      apply sol_value in Hx. unfold lit_value, var_value in Hx. destruct (nth_error b (lvar x)) as [t|] eqn:En; [|discriminate].
      assert (lvar x < length b) by (apply nth_error_Some; congruence). destruct T as (T & _). lia.
    + exists (fun v => match v with PVs x => asg_of b x | PVp _ => false end). intros l Hl. apply Hfw in Hl. apply in_map_iff in Hl. destruct Hl as (x & <- & Hx).
      apply sol_value in Hx. unfold lit_value in Hx. unfold ax_true, asg_of. cbn [axiom ax_var ax_neg]. destruct (var_value b (lvar x)) as [y|]; [|discriminate].
      cbn [is_true]. injection Hx as Hx. destruct y, (lneg x); cbn in *; congruence.
    + intros a Ha. split; [exact (Hph a Ha)|]. intros c Hc. apply for_sol_in in Hc. destruct Hc as (c0 & Hc0 & ->). exact (Hcost a Ha c0 Hc0).
    + apply Forall_forall. intros c Hc. apply for_sol_in in Hc. destruct Hc as (c0 & Hc0 & ->). intros Hlt a Ha. cbn [co_obj co_cost co_enc] in *.
      rewrite <- (Hcost a Ha c0 Hc0) in *. apply (proj2 Hf c0 Hc0 a); [exact (Hph a Ha)|exact Hlt].
    + apply Hup.
    + intros i [].
    + intros key l d1 d2 H. rewrite Ebd in H. discriminate.
    + rewrite rm_nil, <- for_sol_ok. exact (proj1 Hf).
    + apply Hup.
Qed.
Theorem boosted_gen : forall k0 n cls rs cs p r, inst_vars n cls rs -> map co_obj cs = build_objs 0 rs ->
  (forall c b, In c cs -> pe_extend (co_enc c) b = []) -> enc_fine (k_all (kof k0 p)) cs -> proof_start k0 n cls rs p ->
  boosts k0 n (inst_sol n cls) (mkRst cs (S n) p [] []) r -> boost_inv k0 n (inst_sol n cls) (build_objs 0 rs) r.
Proof.
  intros k0 n cls rs cs p r Hv Eo Ex Hf St H. apply (boosts_inv _ _ _ _ _ _ (fun b Hb => proj1 Hb)) with (2 := H).
  constructor; [exact (start_gen k0 n cls rs cs p Hv Eo Ex Hf St)|reflexivity|exact (st_bounds _ _ _ _ _ St)|exact (st_vmap _ _ _ _ _ St)|]. cbn [r_cs]. rewrite Eo. reflexivity.
Qed.
Lemma f_start_gen : forall k0 n cls rs cs p r0, inst_vars n cls rs -> map co_obj cs = build_objs 0 rs -> (forall c b, In c cs -> pe_extend (co_enc c) b = []) ->
  enc_fine (k_all (kof k0 p)) cs -> proof_start k0 n cls rs p -> boosts k0 n (inst_sol n cls) (mkRst cs (S n) p [] []) r0 -> f_inv k0 n cls rs (mkFs AtOuter r0 []).
Proof.
  intros k0 n cls rs cs p r0 Hv Eo Ex Hf St B. pose proof (boosted_gen k0 n cls rs cs p r0 Hv Eo Ex Hf St B) as I. pose proof (bi_done _ _ _ _ _ I) as D. constructor; cbn [f_r f_at f_front]; rewrite ?D.
  - exact (bi_ok _ _ _ _ _ I).
  - exact (bi_objs _ _ _ _ _ I).
  - intros v. rewrite ext_all_view, (boosts_view _ _ _ _ _ B). cbn [r_cs]. rewrite <- ext_all_view, Eo. reflexivity.
  - intros d [].
  - intros w _ _ d [].
  - intros d [].
  - exact Logic.I.
  - intros q [].
  - constructor.
  - constructor.
Qed.
Lemma b_start_gen : forall k0 n cls rs cs p r0 o0 o1, inst_vars n cls rs -> map co_obj cs = build_objs 0 rs -> (forall c b, In c cs -> pe_extend (co_enc c) b = []) ->
  enc_fine (k_all (kof k0 p)) cs -> proof_start k0 n cls rs p -> boosts k0 n (inst_sol n cls) (mkRst cs (S n) p [] []) r0 ->
  map co_obj (r_cs r0) = [o0; o1] ->
  map bare [o0; o1] = map bare (build_objs 0 rs) /\ (forall v, externalize_all [o0; o1] v = externalize_all (build_objs 0 rs) v) /\
  (forall b, inst_sol n cls b -> obj_lb o1 <= icost o1 (asg_of b)) /\
  b_inv k0 n cls rs o0 o1 (obj_lb o1) (mkBf BoSearch (bos_start r0 (obj_lb o0)) []).
Proof.
  intros k0 n cls rs cs p r0 o0 o1 Hv Eo Ex Hf St B E2. pose proof (boosted_gen k0 n cls rs cs p r0 Hv Eo Ex Hf St B) as I. pose proof (bi_done _ _ _ _ _ I) as D.
  assert (Lb : forall o b, In o [o0; o1] -> inst_sol n cls b -> obj_lb o <= icost o (asg_of b)).
  { intros o b Ho Hb. rewrite <- E2 in Ho. apply in_map_iff in Ho. destruct Ho as (c & <- & Hc). exact (boosted_lb k0 n _ r0 b c (fun b Hb => proj1 Hb) (bi_ok _ _ _ _ _ I) D Hb Hc). }
  split; [rewrite <- E2; exact (bi_objs _ _ _ _ _ I)|]. split; [|split].
  - intros v. rewrite <- E2, ext_all_view, (boosts_view _ _ _ _ _ B). cbn [r_cs]. rewrite <- ext_all_view, Eo. reflexivity.
  - intros b Hb. apply Lb; [right; left; reflexivity|exact Hb].
  - constructor; cbn [bf_at bf_s bf_front bos_start br_r br_lb br_end pend app]; rewrite ?D.
    + exact (bos_start_ok _ _ _ r0 (obj_lb o0) (bi_ok _ _ _ _ _ I)).
    + exact E2.
    + intros d [].
    + discriminate.
    + intros _ w _ _ d [].
    + intros _ b (Hb & _). apply Lb; [left; reflexivity|exact Hb].
    + intros _ d [].
    + exact Logic.I.
    + reflexivity.
    + intros d [].
    + constructor.
Qed.

(** ** The constraints of the input *)
Lemma lbs_len : forall c, length (pb_lbs c) = 1 + (if is_eq c then 1 else 0).
Proof. intros [k ls b]. unfold pb_lbs, is_eq. cbn [pb_kind]. destruct k; reflexivity. Qed.
Lemma n_constraints_len : forall cs, n_constraints cs = length (flat_map pb_lbs cs).
Proof.
  intros cs. unfold n_constraints. assert (Q : forall s, fold_left (fun s c => if is_eq c then s + 2 else s + 1) cs s = s + length (flat_map pb_lbs cs)).
  { induction cs as [|c cs IH]; intros s; cbn [fold_left flat_map length]; [lia|]. rewrite IH, app_length, lbs_len. destruct (is_eq c); lia. }
  exact (Q 0).
Qed.
Lemma pb_sum : forall (a : pv -> bool) (ls : list (lit * nat)),
  lb_sum a (map (fun lw => (Z.of_nat (snd lw), axiom (fst lw))) ls) = Z.of_nat (wsum (on_solver a) ls).
Proof.
  intros a ls. induction ls as [|[l w] ls IH]; [reflexivity|]. cbn [map lb_sum wsum fst snd]. rewrite IH, axiom_true. unfold b2z.
  destruct (lit_true (on_solver a) l); lia.
Qed.
Lemma pb_sum_neg : forall (a : pv -> bool) (ls : list (lit * nat)),
  lb_sum a (map (fun lw => (- Z.of_nat (snd lw), axiom (fst lw))%Z) ls) = (- Z.of_nat (wsum (on_solver a) ls))%Z.
Proof.
  intros a ls. induction ls as [|[l w] ls IH]; [reflexivity|]. cbn [map lb_sum wsum fst snd]. rewrite IH, axiom_true. unfold b2z.
  destruct (lit_true (on_solver a) l); lia.
Qed.
Lemma lbs_holds : forall (a : pv -> bool) c, (forall C, In C (pb_lbs c) -> lb_holds a C) <-> pb_holds (on_solver a) c.
Proof.
  intros a [k ls b]. unfold pb_lbs, pb_holds, pb_ge, pb_le. cbn [pb_kind pb_lits pb_bound].
  assert (G : lb_holds a (mkLb (map (fun lw => (Z.of_nat (snd lw), axiom (fst lw))) ls) b) <-> (b <= Z.of_nat (wsum (on_solver a) ls))%Z).
  { unfold lb_holds. cbn [lb_terms lb_bound]. rewrite pb_sum. reflexivity. }
  assert (L : lb_holds a (mkLb (map (fun lw => (- Z.of_nat (snd lw), axiom (fst lw))%Z) ls) (- b)%Z) <-> (Z.of_nat (wsum (on_solver a) ls) <= b)%Z).
  { unfold lb_holds. cbn [lb_terms lb_bound]. rewrite pb_sum_neg. lia. }
  destruct k; split.
  - intros H. apply L. apply H. left. reflexivity.
  - intros H C [<-|[]]. apply L. exact H.
  - intros H. apply G. apply H. left. reflexivity.
  - intros H C [<-|[]]. apply G. exact H.
  - intros H. apply Z.le_antisymm; [apply L|apply G]; apply H; [right; left|left]; reflexivity.
  - intros H C [<-|[<-|[]]]; [apply G|apply L]; lia.
Qed.
Lemma lbs_vars : forall c C v, In C (pb_lbs c) -> In v (cvars C) -> exists x, v = PVs x /\ In x (pb_vars c).
Proof.
  intros [k ls b] C v HC Hv. unfold pb_vars. cbn [pb_lits].
  assert (Q : exists f : lit * nat -> Z, lb_terms C = map (fun lw => (f lw, axiom (fst lw))) ls).
  { unfold pb_lbs, pb_ge, pb_le in HC. cbn [pb_kind pb_lits pb_bound] in HC.
    destruct k; cbn [In] in HC; repeat (destruct HC as [<-|HC]); try contradiction; eexists; reflexivity. }
  destruct Q as (f & Q). unfold cvars in Hv. rewrite Q, map_map in Hv. apply in_map_iff in Hv. destruct Hv as (lw & <- & Hl). cbn [snd axiom ax_var].
  eexists. split; [reflexivity|]. apply in_lits_vars. exists (fst lw). split; [apply in_map; exact Hl|reflexivity].
Qed.
Lemma number_nth : forall {A} (l : list A) n j x, nth_error l j = Some x -> In (n + j, x) (number n l).
Proof.
  intros A l. induction l as [|y l IH]; intros n [|j] x H; cbn [nth_error number] in *; try discriminate.
  - injection H as ->. left. f_equal. lia.
  - right. replace (n + S j) with (S n + j) by lia. exact (IH (S n) j x H).
Qed.
Lemma init_pb_all : forall cs objs e, In e (k_all (init_chk_pb cs objs)) -> exists c, In c cs /\ In (snd e) (pb_lbs c).
Proof.
  intros cs objs [i x] He. unfold k_all, init_chk_pb in He. cbn [k_core k_der] in He. rewrite app_nil_r in He. apply number_in in He.
  destruct He as (_ & He). apply nth_error_In in He. apply in_flat_map in He. exact He.
Qed.
Lemma init_pb_ids : forall cs objs, ids_ok (init_chk_pb cs objs).
Proof.
  intros cs objs. unfold ids_ok, init_chk_pb, k_all. cbn [k_core k_der k_next]. rewrite app_nil_r. split.
  - intros i c c' X Y. apply number_in in X. apply number_in in Y. destruct X as (_ & X), Y as (_ & Y). congruence.
  - intros [i c] X. apply number_in in X. cbn [fst]. lia.
Qed.
Lemma init_pb_holds : forall (a : pv -> bool) cs objs, db_holds a (k_core (init_chk_pb cs objs)) <-> Forall (pb_holds (on_solver a)) cs.
Proof.
  intros a cs objs. rewrite Forall_forall. split.
  - intros H c Hc. apply lbs_holds. intros C HC. assert (X : In C (flat_map pb_lbs cs)) by (apply in_flat_map; exists c; split; assumption).
    destruct (number_all _ 1 C X) as (i & Hi). exact (H (i, C) Hi).
  - intros H e He. destruct (init_pb_all cs objs e) as (c & Hc & HC); [apply in_k_all; left; exact He|]. exact (proj2 (lbs_holds a c) (H c Hc) _ HC).
Qed.
Lemma init_pb_wok : forall cs objs, wok (init_chk_pb cs objs) (init_pst cs).
Proof.
  intros cs objs. constructor.
  - apply init_pb_ids.
  - exact Logic.I.
  - cbn [init_pst ps_next]. rewrite n_constraints_len. reflexivity.
  - intros e n He Hn. destruct (init_pb_all cs objs e He) as (c & _ & HC). destruct (lbs_vars c _ _ HC Hn) as (x & E & _). discriminate.
Qed.
Lemma init_pb_new : forall cs objs n, (forall c v, In c cs -> In v (pb_vars c) -> v < n) -> new_from (init_chk_pb cs objs) (init_pst cs) n.
Proof.
  intros cs objs n H r Hr. split; [|intros []]. intros e He X. destruct (init_pb_all cs objs e He) as (c & Hc & HC).
  destruct (lbs_vars c _ _ HC X) as (x & E & Hx). injection E as ->. specialize (H c x Hc Hx). lia.
Qed.

(** ** The translation *)
Lemma step_order : forall k s, k_order (step_next k s) = k_order k.
Proof. intros k [p|c hs|c w gs|ls full|ids|ids gs]; cbn [step_next]; try reflexivity. destruct (pol_eval _ _ p); reflexivity. Qed.
Lemma steps_order : forall ss k, k_order (steps_next k ss) = k_order k.
Proof. induction ss as [|s ss IH]; intros k; [reflexivity|]. cbn [steps_next]. rewrite IH. apply step_order. Qed.
Theorem encode_cert_ok : forall pe ce (strict : bool), pb_enc_ok pe -> cert_same pe ce -> cert_enc_valid ce ->
  (strict = true -> cert_enc_ok ce) ->
  forall k0 cs id n p cls n' p', encode_constrs_cert ce cs id n p = Some (cls, n', p') ->
  wok k0 p -> new_from k0 p n -> (forall a, ord_holds (k_order (kof k0 p)) a a) -> (forall r, n <= r -> ord_free (k_order (kof k0 p)) (PVs r)) ->
  (forall c v, In c cs -> In v (pb_vars c) -> v < n) ->
  (forall j C, nth_error (flat_map pb_lbs cs) j = Some C -> In (id + j, C) (k_all (kof k0 p))) ->
  encode_constrs pe cs n = Some (map fst cls, n') /\
  wok k0 p' /\ new_from k0 p' n' /\ (ps_vmap p' = ps_vmap p /\ ps_bounds p' = ps_bounds p /\ ps_reg p' = ps_reg p) /\
  k_excl (kof k0 p') = k_excl (kof k0 p) /\
  (forall e, In e (k_all (kof k0 p)) -> ~ (id <= fst e < id + length (flat_map pb_lbs cs)) -> In e (k_all (kof k0 p'))) /\
  (forall cl i, In (cl, i) cls -> exists C, In (i, C) (k_all (kof k0 p')) /\ lb_same pv_eqd C (clause_pb cl)) /\
  (strict = true -> forall a, proof_holds a (kof k0 p) -> sat (on_solver a) (map fst cls) -> proof_holds a (kof k0 p')) /\
  (exists ls, ps_log p' = ps_log p ++ ls).
Proof.
  intros pe ce strict Hpe Hsame Hval Hstr k0 cs. induction cs as [|c cs IH]; intros id n p cls n' p' E W N O1 O2 Hv Hin.
  - cbn [encode_constrs_cert] in E. injection E as <- <- <-. cbn [encode_constrs map flat_map length].
    split; [reflexivity|]. split; [exact W|]. split; [exact N|]. split; [auto|]. split; [reflexivity|]. split; [auto|]. split; [intros cl i []|].
    split; [auto|]. exists []. rewrite app_nil_r. reflexivity.
  - cbn [encode_constrs_cert] in E. destruct (ce c id n p) as [[[cls1 n1] p1]|] eqn:E1; [|discriminate].
    destruct (encode_constrs_cert ce cs (id + (1 + (if is_eq c then 1 else 0))) n1 p1) as [[[cls2 n2] p2]|] eqn:E2; [|discriminate].
    injection E as <- <- <-. rewrite <- lbs_len in E2.
    pose proof (Hsame c id n p) as Ep. rewrite E1 in Ep. cbn [option_map fst snd] in Ep. symmetry in Ep.
    assert (Hvc : forall v, In v (pb_vars c) -> v < n) by (intros v; apply Hv; left; reflexivity).
    destruct (Hpe c n _ _ Ep Hvc) as (Hle & _).
    assert (Pre : cert_pre k0 c id n p).
    { split; [exact W|]. split; [exact N|]. split; [exact O1|]. split; [exact O2|]. split; [exact Hvc|]. intros j C Hj. apply Hin. cbn [flat_map]. rewrite nth_error_app1; [exact Hj|].
      apply nth_error_Some. congruence. }
    pose proof (Hval k0 c id n p cls1 n1 p1 E1 Pre) as [C1 C2 C3 C4 C5 C6 C7].
    assert (Eo : k_order (kof k0 p1) = k_order (kof k0 p)) by (destruct C7 as (ls & C7); unfold kof; rewrite C7, steps_next_app, steps_order; reflexivity).
    destruct (IH (id + length (pb_lbs c)) n1 p1 cls2 n2 p2 E2 C1 C2) as (I1 & I2 & I3 & (I4a & I4b & I4c) & I5 & I6 & I7 & I8 & I9).
    { rewrite Eo. exact O1. }
    { intros r Hr. rewrite Eo. apply O2. lia. }
    { intros c' v Hc Hx. assert (v < n) by (apply (Hv c'); [right; exact Hc|exact Hx]). lia. }
    { intros j C Hj. assert (X : In (id + (length (pb_lbs c) + j), C) (k_all (kof k0 p))).
      { apply Hin. cbn [flat_map]. rewrite nth_error_app2 by lia. replace (length (pb_lbs c) + j - length (pb_lbs c)) with j by lia. exact Hj. }
      replace (id + length (pb_lbs c) + j) with (id + (length (pb_lbs c) + j)) by lia. apply C5; [exact X|]. unfold own_id. cbn [fst]. lia. }
    destruct C3 as (C3a & C3b & C3c). destruct C7 as (ls1 & C7), I9 as (ls2 & I9).
    split; [cbn [encode_constrs]; rewrite Ep, I1, map_app; reflexivity|]. split; [exact I2|]. split; [exact I3|].
    split; [split; [congruence|split; congruence]|]. split; [congruence|].
    assert (Hin2 : forall j, j < length (flat_map pb_lbs (c :: cs)) -> exists C, In (id + j, C) (k_all (kof k0 p))).
    { intros j Hj. apply nth_error_Some in Hj. destruct (nth_error (flat_map pb_lbs (c :: cs)) j) as [C|] eqn:Ej; [|congruence]. exists C. exact (Hin j C Ej). }
    split; [|split; [|split]].
    + intros e He Ho. cbn [flat_map] in Ho. rewrite app_length in Ho. apply I6; [apply C5; [exact He|]; unfold own_id; lia|lia].
    + intros cl i Hi. apply in_app_or in Hi. destruct Hi as [Hi|Hi]; [|exact (I7 cl i Hi)].
      destruct (C6 cl i Hi) as (Hid & C & HC & Hs). exists C. split; [|exact Hs]. apply I6; [exact HC|]. cbn [fst]. unfold own_id in Hid.
      destruct Hid as [Hid|Hid]; [lia|]. intros Hr. destruct (Hin2 (i - id)) as (D & HD); [cbn [flat_map]; rewrite app_length; lia|].
      destruct (wk_ids _ _ W) as (_ & U). specialize (U _ HD). cbn [fst] in U. rewrite (wk_next _ _ W) in U. lia.
    + intros Es a Ha Hs. rewrite map_app, sat_app in Hs. destruct (Hstr Es k0 c id n p cls1 n1 p1 E1 Pre) as (_ & St). apply (I8 Es a); [apply St; [exact Ha|exact (proj1 Hs)]|exact (proj2 Hs)].
    + exists (ls1 ++ ls2). rewrite I9, C7, app_assoc. reflexivity.
Qed.

Lemma build_order_vars : forall rs r, (forall x l w, In x rs -> In (l, w) (fst x) -> lvar l < r) -> forall r', r <= r' -> ord_free (map obj_order (build_objs 0 rs)) (PVs r').
Proof.
  intros rs r H r' Hr o t x Ho Ht E. apply in_map_iff in Ho. destruct Ho as (ob & <- & Hob). unfold obj_order in Ht. cbn [lb_terms] in Ht.
  apply in_flat_map in Ht. destruct Ht as ([l w] & Hl & Ht). destruct (build_lits rs 0 ob l w Hob Hl) as (y & w' & Hy & Hin). specialize (H y l w' Hy Hin).
  cbn [fst snd In] in Ht. destruct Ht as [<-|[<-|[]]]; cbn [snd ax_var] in E; [injection E as <-|discriminate]. intros X. injection X as ->. lia.
Qed.
Lemma build_order_refl : forall rs a, ord_holds (map obj_order (build_objs 0 rs)) a a.
Proof.
  intros rs a. rewrite <- order_fst. apply order_refl; [apply order_accepted|]. intros c p. apply order_no_w.
Qed.
Theorem cert_shape : forall pe ce p i ids pr pcs, pb_enc_ok pe -> cert_same pe ce -> cert_enc_valid ce -> parsed_ok p ->
  to_clausal_cert ce p = POk (i, ids, pr) -> proof_constrs p = Some pcs ->
  let k0 := init_chk_pb pcs (build_objs 0 (in_objs i)) in
  to_clausal pe p = POk i /\ length ids = length (in_cls i) /\ wok k0 pr /\ new_from k0 pr (vm_next (in_vm i)) /\
  (ps_vmap pr = [] /\ ps_bounds pr = [] /\ ps_reg pr = []) /\ k_excl (kof k0 pr) = [] /\
  k_order (kof k0 pr) = map obj_order (build_objs 0 (in_objs i)) /\
  (forall cl id, In (cl, id) (combine (in_cls i) ids) -> exists C, In (id, C) (k_all (kof k0 pr)) /\ lb_same pv_eqd C (clause_pb cl)) /\
  (forall a, sat a (in_cls i) -> Forall (pb_holds a) pcs) /\
  (cert_enc_ok ce -> forall a, sat (on_solver a) (in_cls i) -> proof_holds a (kof k0 pr)).
Proof.
  intros pe ce p i ids pr pcs Hpe Hsame Hval Hp H Hpc k0. unfold to_clausal_cert in H. unfold proof_constrs in Hpc.
  destruct (process_objectives _ _) as [[ros s]|] eqn:E1; [|discriminate]. injection Hpc as Es.
  destruct (encode_constrs_cert _ _ _ _ _) as [[[cls next] p1]|] eqn:E2; [|discriminate].
  destruct (vm_mark_max_enc _) as [vm|] eqn:E3; [|discriminate]. injection H as Ei Eids Epr.
  destruct (process_objectives_inv (pa_constrs p) (pa_vm p) _ [] _ _ _ (soft_inv_init _ _) (po_softs p Hp) E1) as (E & HE & Ero & Hall). cbn [app] in HE, Hall.
  set (n0 := vm_next (pa_vm p)) in *.
  assert (Hnext : vm_next (ss_vm s) = n0 + length E) by (rewrite (si_vm _ _ _ _ HE); reflexivity).
  assert (Hvars : forall c v, In c pcs -> In v (pb_vars c) -> v < n0 + length E).
  { intros c v Hc Hv. rewrite <- Es in Hc. apply (si_con _ _ _ _ HE) in Hc. destruct Hc as [Hc|(k & cl & Hk & ->)].
    - pose proof (po_constrs p Hp c v Hc Hv). unfold n0. lia.
    - rewrite pb_of_clause_vars, lits_vars_app in Hv. apply in_app_or in Hv. destruct Hv as [Hv|[<-|[]]].
      + apply (si_var _ _ _ _ HE cl v) in Hv; [|eapply nth_error_In; eauto]. unfold n0. lia.
      + cbn. assert (k < length E) by exact (nth_lt _ _ _ Hk). unfold n0. lia. }
  assert (Hov : forall x l w, In x (in_objs i) -> In (l, w) (fst x) -> lvar l < n0 + length E).
  { intros x l w Hx Hl. rewrite <- Ei in Hx. cbn [in_objs] in Hx. rewrite Ero in Hx. apply in_map_iff in Hx. destruct Hx as (o & <- & Ho). cbn [fst] in Hl.
    apply in_map_iff in Hl. destruct Hl as ([cl w'] & El & Hcw). cbn [fst snd] in El. injection El as <- <-. destruct (Hall o (cl, w') Ho Hcw) as [Hne Hin]. cbn [fst] in *.
    destruct Hin as [Hin|Hin].
    - destruct cl as [|y [|]]; try discriminate. cbn. pose proof (po_softs p Hp o ([y], w') (lvar y) Ho Hcw (or_introl eq_refl)). unfold n0. lia.
    - pose proof (si_len _ _ _ _ HE _ Hin) as Hlen. apply In_nth_error in Hin. destruct Hin as [k Hk]. assert (k < length E) by exact (nth_lt _ _ _ Hk).
      unfold lit_of. rewrite (si_put _ _ _ _ HE _ _ Hk). destruct cl as [|y [|y2 cl]]; [cbn in Hlen; lia..|]. cbn. unfold n0. lia. }
  rewrite Es, Hnext in E2.
  assert (Ord : k_order k0 = map obj_order (build_objs 0 (in_objs i))) by (unfold k0, init_chk_pb; cbn [k_order]; apply order_fst).
  assert (Main : forall st : bool, (st = true -> cert_enc_ok ce) -> encode_constrs pe pcs (n0 + length E) = Some (map fst cls, next) /\
    wok k0 p1 /\ new_from k0 p1 next /\ (ps_vmap p1 = [] /\ ps_bounds p1 = [] /\ ps_reg p1 = []) /\ k_excl (kof k0 p1) = [] /\
    (forall cl i, In (cl, i) cls -> exists C, In (i, C) (k_all (kof k0 p1)) /\ lb_same pv_eqd C (clause_pb cl)) /\
    (st = true -> forall a, proof_holds a k0 -> sat (on_solver a) (map fst cls) -> proof_holds a (kof k0 p1))).
  { intros st Hst. destruct (encode_cert_ok pe ce st Hpe Hsame Hval Hst k0 pcs 1 (n0 + length E) (init_pst pcs) cls next p1 E2) as (I1 & I2 & I3 & I4 & I5 & _ & I7 & I8 & _).
    - apply init_pb_wok.
    - apply init_pb_new. exact Hvars.
    - intros a. change (kof k0 (init_pst pcs)) with k0. rewrite Ord. apply build_order_refl.
    - intros r Hr. change (kof k0 (init_pst pcs)) with k0. rewrite Ord. exact (build_order_vars _ _ Hov r Hr).
    - exact Hvars.
    - intros j C Hj. apply in_k_all. left. exact (number_nth _ 1 j C Hj).
    - split; [exact I1|]. split; [exact I2|]. split; [exact I3|]. split; [exact I4|]. split; [exact I5|]. split; [exact I7|exact I8]. }
  destruct (Main false ltac:(discriminate)) as (I1 & I2 & I3 & I4 & I5 & I7 & _).
  assert (Ecl : in_cls i = map fst cls) by (rewrite <- Ei; reflexivity).
  assert (Evm : vm_next (in_vm i) = next).
  { rewrite <- Ei. cbn [in_vm]. unfold vm_mark_max_enc in E3. cbn [vm_set_next vm_next vm_max_orig vm_max_enc] in E3. destruct next as [|m]; [discriminate|]. injection E3 as <-. reflexivity. }
  assert (Ecomb : combine (in_cls i) ids = cls).
  { rewrite Ecl, <- Eids. clear. induction cls as [|[a b] cls IH]; [reflexivity|]. cbn [map combine fst snd]. rewrite IH. reflexivity. }
  destruct (encode_constrs_ok pe Hpe _ (n0 + length E) _ _ _ I1 (le_n _) Hvars) as (_ & _ & Hsat & _).
  assert (Hsat' : forall a, sat a (in_cls i) -> Forall (pb_holds a) pcs) by (intros a Ha; apply Forall_forall; intros c Hc; rewrite Ecl in Ha; exact (Hsat a Ha c Hc)).
  split; [unfold to_clausal; rewrite E1, Es, Hnext, I1, E3, <- Ei; reflexivity|].
  split; [rewrite Ecl, <- Eids, !map_length; reflexivity|]. rewrite <- Epr, Evm.
  split; [exact I2|]. split; [exact I3|]. split; [exact I4|]. split; [exact I5|].
  split; [unfold kof; rewrite steps_order; exact Ord|]. split; [rewrite Ecomb; exact I7|]. split; [exact Hsat'|].
  intros Hok a Ha. destruct (Main true (fun _ => Hok)) as (_ & _ & _ & _ & _ & _ & St). apply (St eq_refl).
  - assert (X : db_holds a (k_core k0)) by (apply init_pb_holds; apply Hsat'; exact Ha). intros e He. apply X. apply in_k_all in He. destruct He as [He|[]]. exact He.
  - rewrite <- Ecl. exact Ha.
Qed.
Lemma load_cert_ps : forall cls ids p, let q := load_cert cls ids p in
  ps_log q = ps_log p /\ ps_next q = ps_next p /\ ps_nextvar q = ps_nextvar p /\ ps_vmap q = ps_vmap p /\ ps_bounds q = ps_bounds p /\
  ps_reg q = ps_reg p ++ combine cls ids.
Proof.
  intros cls ids p. unfold load_cert. generalize (combine cls ids). intros l. revert p.
  induction l as [|[c i] l IH]; intros p; cbn [fold_left]; [rewrite app_nil_r; repeat (split; [reflexivity|]); reflexivity|].
  destruct (IH (add_cert c i p)) as (H1 & H2 & H3 & H4 & H5 & H6). cbn [fst snd]. repeat (split; [assumption|]). rewrite H6. cbn [add_cert ps_reg]. rewrite <- app_assoc. reflexivity.
Qed.
Theorem cert_start : forall pe ce p i ids pr pcs, pb_enc_ok pe -> cert_same pe ce -> cert_enc_ok ce -> parsed_ok p ->
  to_clausal_cert ce p = POk (i, ids, pr) -> proof_constrs p = Some pcs ->
  proof_start (init_chk_pb pcs (build_objs 0 (in_objs i))) (vm_max_enc (in_vm i)) (in_cls i) (in_objs i) (load_cert (in_cls i) ids pr).
Proof.
  intros pe ce p i ids pr pcs Hpe Hsame Hok Hp H Hpc.
  destruct (cert_shape pe ce p i ids pr pcs Hpe Hsame (fun k0 c id n p cls n' p' E Pre => proj1 (Hok k0 c id n p cls n' p' E Pre)) Hp H Hpc)
    as (T & L & W & N & (V1 & V2 & V3) & X & O & C & _ & St).
  set (k0 := init_chk_pb pcs (build_objs 0 (in_objs i))) in *.
  destruct (load_cert_ps (in_cls i) ids pr) as (P1 & P2 & P3 & P4 & P5 & P6). set (q := load_cert (in_cls i) ids pr) in *.
  assert (Ek : kof k0 q = kof k0 pr) by (unfold kof; rewrite P1; reflexivity).
  destruct (clausal_vars pe p i Hpe Hp T) as (_ & En & _).
  constructor; rewrite ?Ek.
  - destruct W as [W1 W2 W3 W4]. constructor; rewrite ?Ek, ?P1, ?P2, ?P3; assumption.
  - intros r Hr. rewrite P1. apply N. lia.
  - exact O.
  - congruence.
  - congruence.
  - exact X.
  - intros c id Hc. rewrite P6, V3 in Hc. cbn [app] in Hc. destruct (C c id Hc) as (D & HD & Hs). exists D. split; [|exact Hs]. exists (ps_log q), []. split; [rewrite app_nil_r; reflexivity|].
    change (steps_next k0 (ps_log q)) with (kof k0 q). rewrite Ek. exact HD.
  - exact (St Hok).
Qed.
Lemma inst_vars_ok : forall i, inst_ok i -> inst_vars (vm_max_enc (in_vm i)) (in_cls i) (in_objs i).
Proof.
  intros i [I1 I2 I3 I4 I5 I6]. split.
  - intros c l Hc Hl. apply I3. apply in_cls_vars. exists c. split; [exact Hc|]. apply in_lits_vars. exists l. split; [exact Hl|reflexivity].
  - intros r l w Hr Hl. apply (I4 r); [exact Hr|]. apply in_lits_vars. exists l. split; [|reflexivity]. apply in_map_iff. exists (l, w). split; [reflexivity|exact Hl].
Qed.
Lemma wd_trans : forall a b c, weakly_dominates a b -> weakly_dominates b c -> weakly_dominates a c.
Proof.
  intros a b c H. revert c. induction H as [|x y a b Hx H IH]; intros c G; inversion G; subst; constructor; [lia|apply IH; assumption].
Qed.

(** The constraints the checker reads against the clauses of the instance *)
Theorem constrs_rel : forall pe p i pcs, pb_enc_ok pe -> parsed_ok p -> to_clausal pe p = POk i -> proof_constrs p = Some pcs ->
  (forall a, sat a (in_cls i) -> Forall (pb_holds a) pcs) /\
  forall a, Forall (pb_holds a) pcs -> exists b, (forall v, v < vm_next (pa_vm p) -> b v = a v) /\ sat b (in_cls i) /\ costs (in_objs i) b = costs (in_objs i) a.
Proof.
  intros pe p i pcs Hpe Hp H Hpc. unfold to_clausal in H. unfold proof_constrs in Hpc.
  destruct (process_objectives _ _) as [[ros s]|] eqn:E1; [|discriminate]. injection Hpc as Es.
  destruct (encode_constrs _ _ _) as [[cls next]|] eqn:E2; [|discriminate].
  destruct (vm_mark_max_enc _) as [vm|] eqn:E3; [|discriminate]. injection H as Ei.
  destruct (process_objectives_inv (pa_constrs p) (pa_vm p) _ [] _ _ _ (soft_inv_init _ _) (po_softs p Hp) E1) as (E & HE & Ero & Hall). cbn [app] in HE, Hall.
  set (n0 := vm_next (pa_vm p)) in *.
  assert (Hnext : vm_next (ss_vm s) = n0 + length E) by (rewrite (si_vm _ _ _ _ HE); reflexivity).
  assert (Hvars : forall c v, In c pcs -> In v (pb_vars c) -> v < n0 + length E).
  { intros c v Hc Hv. rewrite <- Es in Hc. apply (si_con _ _ _ _ HE) in Hc. destruct Hc as [Hc|(k & cl & Hk & ->)].
    - pose proof (po_constrs p Hp c v Hc Hv). unfold n0. lia.
    - rewrite pb_of_clause_vars, lits_vars_app in Hv. apply in_app_or in Hv. destruct Hv as [Hv|[<-|[]]].
      + apply (si_var _ _ _ _ HE cl v) in Hv; [|eapply nth_error_In; eauto]. unfold n0. lia.
      + cbn. assert (k < length E) by exact (nth_lt _ _ _ Hk). unfold n0. lia. }
  assert (Hov : forall x l w, In x (in_objs i) -> In (l, w) (fst x) -> lvar l < n0 + length E).
  { intros x l w Hx Hl. rewrite <- Ei in Hx. cbn [in_objs] in Hx. rewrite Ero in Hx. apply in_map_iff in Hx. destruct Hx as (o & <- & Ho). cbn [fst] in Hl.
    apply in_map_iff in Hl. destruct Hl as ([cl w'] & El & Hcw). cbn [fst snd] in El. injection El as <- <-. destruct (Hall o (cl, w') Ho Hcw) as [Hne Hin]. cbn [fst] in *.
    destruct Hin as [Hin|Hin].
    - destruct cl as [|y [|]]; try discriminate. cbn. pose proof (po_softs p Hp o ([y], w') (lvar y) Ho Hcw (or_introl eq_refl)). unfold n0. lia.
    - pose proof (si_len _ _ _ _ HE _ Hin) as Hlen. apply In_nth_error in Hin. destruct Hin as [k Hk]. assert (k < length E) by exact (nth_lt _ _ _ Hk).
      unfold lit_of. rewrite (si_put _ _ _ _ HE _ _ Hk). destruct cl as [|y [|y2 cl]]; [cbn in Hlen; lia..|]. cbn. unfold n0. lia. }
  rewrite Es, Hnext in E2. destruct (encode_constrs_ok pe Hpe _ (n0 + length E) _ _ _ E2 (le_n _) Hvars) as (_ & _ & Hs & Hex).
  assert (Ecl : in_cls i = cls) by (rewrite <- Ei; reflexivity). rewrite Ecl. split.
  - intros a Ha. apply Forall_forall. exact (Hs a Ha).
  - intros a Ha. destruct (Hex a (proj1 (Forall_forall _ _) Ha)) as (b & Hb & Hsat). exists b. split; [intros v Hv; apply Hb; lia|]. split; [exact Hsat|].
    unfold costs. apply map_ext_in. intros r Hr. unfold obj_value. f_equal. f_equal. apply wsum_ext. intros [l w] Hl. cbn [fst]. unfold lit_true. rewrite (Hb _ (Hov r l w Hr Hl)). reflexivity.
Qed.

(** ** What an accepted proof says about the parsed problem *)
Theorem accepted_parsed : forall pe p i pcs ss, pb_enc_ok pe -> parsed_ok p -> to_clausal pe p = POk i -> proof_constrs p = Some pcs ->
  let k := init_chk_pb pcs (build_objs 0 (in_objs i)) in
  steps_valid k ss -> (exists e, In e (k_all (steps_next k ss)) /\ contradictory (snd e)) ->
  (forall ls, In ls (k_excl (steps_next k ss)) -> fixes_objs (in_objs i) ls) ->
  forall a, p_feasible p a ->
  exists ls s, In ls (k_excl (steps_next k ss)) /\ agrees_with s ls /\ p_feasible p s /\ weakly_dominates (p_costs p s) (p_costs p a).
Proof.
  intros pe p i pcs ss Hpe Hp Hi Hpc k Hv Hc Hfix a Ha. destruct (constrs_rel pe p i pcs Hpe Hp Hi Hpc) as (R1 & R2).
  pose proof (io_ok i (clausal_inst_ok pe p i Hpe Hp Hi)) as Hok.
  destruct (clausal_complete pe p i Hpe Hp Hi a Ha) as (b0 & _ & Hb0 & Eb0).
  set (rs := in_objs i) in *. set (objs := build_objs 0 rs) in *.
  assert (Hord : map fst (objectives_as_order objs) = map obj_order objs) by apply order_fst.
  assert (Hre : forall x, ord_holds (map obj_order objs) x x).
  { intros x. rewrite <- Hord. apply order_refl; [apply order_accepted|]. intros c q. apply order_no_w. }
  assert (Htr : forall x y z, ord_holds (map obj_order objs) x y -> ord_holds (map obj_order objs) y z -> ord_holds (map obj_order objs) x z).
  { intros x y z. rewrite <- Hord. apply order_transitive; [apply order_accepted|]. intros c q. apply order_no_w. }
  set (F := number 1 (flat_map pb_lbs pcs)).
  assert (Ek : k = mkChk F [] (S (length (flat_map pb_lbs pcs))) (map obj_order objs) []) by (unfold k, init_chk_pb; rewrite Hord; reflexivity).
  set (a' := fun x : pv => match x with PVs v => b0 v | PVp _ => false end).
  assert (HF : db_holds a' F) by (apply (init_pb_holds a' pcs objs); exact (R1 b0 Hb0)).
  rewrite Ek in Hv, Hc. pose proof (accepted_covers (map obj_order objs) Hre Htr F (S (length (flat_map pb_lbs pcs))) ss) as X.
  rewrite <- Ek in X, Hv, Hc. specialize (X (init_pb_ids pcs objs) Hv Hc a' HF).
  destruct X as (ls & b & Hls & Hb & Ho). destruct (steps_excl F ss k (init_pb_ids pcs objs)) as (He & _); [intros x Hx; exact Hx|exact Hv|intros x []|].
  destruct (He ls Hls) as (s & Hs & HsF). exists ls, (on_solver s). split; [exact Hls|]. split; [apply ax_all_agrees; exact Hs|].
  destruct (R2 (on_solver s) (proj1 (init_pb_holds s pcs objs) HsF)) as (s' & Es' & Hs' & Ecs'). destruct (clausal_sound pe p i Hpe Hp Hi s' Hs') as (Hf & Hd). fold rs in Ecs', Hd.
  split; [exact (p_feasible_agree p s' (on_solver s) Hp Es' Hf)|].
  rewrite (p_costs_agree p (on_solver s) s' Hp) by (intros v Hv'; symmetry; exact (Es' v Hv')). rewrite Ecs' in Hd.
  rewrite (Hfix ls Hls (on_solver s) (on_solver b)) in Hd; [|apply ax_all_agrees; exact Hs|apply ax_all_agrees; exact Hb].
  assert (Hm : weakly_dominates (costs rs (on_solver b)) (costs rs b0)) by (apply (order_meaning rs 0 (on_solver b) b0 Hok); exact Ho).
  rewrite Eb0 in Hm. exact (wd_trans _ _ _ Hd Hm).
Qed.

(** ** The fronts *)
Lemma total_nth : forall n b v, total_to n b -> v <= n -> exists x, nth_error b v = Some (Some x).
Proof.
  intros n b v (L & T) Hv. destruct (nth_error b v) as [[x|]|] eqn:E; [exists x; reflexivity| |].
  - exfalso. exact (T None (nth_error_In _ _ E) eq_refl).
  - exfalso. apply nth_error_None in E. lia.
Qed.
Lemma reported_solution : forall pe p i b, pb_enc_ok pe -> parsed_ok p -> to_clausal pe p = POk i -> inst_sol (vm_max_enc (in_vm i)) (in_cls i) b ->
  pareto_optimal (in_cls i) (in_objs i) (costs (in_objs i) (asg_of b)) ->
  p_solution p (costs (in_objs i) (asg_of b)) (truncate b (vm_max_orig (pa_vm p))).
Proof.
  intros pe p i b Hpe Hp Hi (Ht & Hs) Ho. destruct (clausal_vars pe p i Hpe Hp Hi) as (V1 & V2 & V3). pose proof (po_vm p Hp) as V4.
  assert (En : n_orig i = S (vm_max_orig (pa_vm p))) by (unfold n_orig; rewrite V1; reflexivity).
  assert (Hle : vm_max_orig (pa_vm p) <= vm_max_enc (in_vm i)) by lia.
  apply (clausal_solution pe p i Hpe Hp Hi); [exact Ho|]. rewrite En. split; [|split].
  - unfold truncate. rewrite firstn_length. destruct Ht as (L & _). lia.
  - intros v Hv. unfold truncate. rewrite firstn_nth_error by lia. apply (total_nth _ _ v Ht). lia.
  - exists (asg_of b). split; [|split; [exact Hs|reflexivity]]. intros v x Hx. unfold truncate in Hx. destruct (Nat.lt_ge_cases v (S (vm_max_orig (pa_vm p)))) as [Hv|Hv].
    + rewrite firstn_nth_error in Hx by lia. unfold asg_of, var_value. rewrite Hx. destruct x; reflexivity.
    + exfalso. assert (v < length (firstn (S (vm_max_orig (pa_vm p))) b)) by (apply nth_error_Some; congruence). rewrite firstn_length in *. lia.
Qed.
Lemma f_inv_front : forall k0 n cls rs s, f_inv k0 n cls rs s ->
  steps_valid k0 (ps_log (r_p (f_r s))) /\
  (forall p, In p (f_front s) -> pareto_optimal cls rs (nd_costs p) /\
     exists b, nd_sols p = [b] /\ inst_sol n cls b /\ costs rs (asg_of b) = nd_costs p /\ In (map axiom (sol_lits b)) (k_excl (kof k0 (r_p (f_r s))))) /\
  NoDup (map nd_costs (f_front s)).
Proof.
  intros k0 n cls rs s I. split; [exact (wk_valid _ _ (ro_wok _ _ _ _ (fi_run _ _ _ _ _ I)))|]. split; [|exact (fi_once _ _ _ _ _ I)].
  intros p Hp. destruct (fi_front _ _ _ _ _ I p Hp) as (b & E & Hb & Ho). split; [exact Ho|]. exists b. rewrite E. split; [reflexivity|]. split; [exact (fi_sols _ _ _ _ _ I b Hb)|].
  split; [reflexivity|]. rewrite (ro_excl _ _ _ _ (fi_run _ _ _ _ _ I)). apply in_map_iff. exists b. split; [reflexivity|exact Hb].
Qed.
Lemma f_inv_finished : forall k0 n cls rs s, Forall obj_ok rs -> inst_vars n cls rs -> f_inv k0 n cls rs s -> pm_finished k0 s ->
  is_pareto_front cls rs (map nd_costs (f_front s)) /\ exists e, In e (k_all (kof k0 (r_p (f_r s)))) /\ contradictory (snd e).
Proof.
  intros k0 n cls rs s Hok Hv I (Ha & core & id & C & Hi & Hin & Hsame).
  assert (Con : exists e, In e (k_all (kof k0 (r_p (f_r s)))) /\ contradictory (snd e)).
  { exists (id, C). split; [exact Hin|]. intros a _ X. cbn [snd] in X. rewrite (lb_same_holds pv_eqd _ _ Hsame) in X. apply lb_clause_holds in X. destruct X as (l & Hl & _).
    destruct core as [|y core]; [destruct Hl|]. exact (Hi y (or_introl eq_refl)). }
  split; [|exact Con]. split; [exact (fi_once _ _ _ _ _ I)|]. intros c. split.
  - intros Hc. apply in_map_iff in Hc. destruct Hc as (p & <- & Hp). destruct (fi_front _ _ _ _ _ I p Hp) as (b & _ & _ & Ho). exact Ho.
  - intros Hc. destruct (gen_complete k0 n cls rs (f_r s) Hok Hv (fi_run _ _ _ _ _ I) (fi_objs _ _ _ _ _ I) (fi_sols _ _ _ _ _ I) Con) as (_ & Q).
    destruct (Q c Hc) as (d & Hd & Ed). pose proof (fi_acc _ _ _ _ _ I d Hd) as A. rewrite Ha in A. destruct A as [A|[(e & He & L & Bt)|[]]].
    + apply in_flat_map in A. destruct A as (p & Hp & Hq). destruct (fi_front _ _ _ _ _ I p Hp) as (b & E & _ & _). rewrite E in Hq. destruct Hq as [<-|[]].
      apply in_map_iff. exists p. split; [rewrite E; exact Ed|exact Hp].
    + exfalso. apply (proj2 Hc (asg_of e) (proj2 (fi_sols _ _ _ _ _ I e He))). rewrite <- Ed. pose proof (fi_objs _ _ _ _ _ I) as Eb. split.
      * exact (proj1 (le_iff rs Hok (r_cs (f_r s)) e d Eb) L).
      * intros X. apply (proj1 (better_iff rs Hok (r_cs (f_r s)) e d Eb) Bt). rewrite X. apply (ic_le rs Hok 0). apply vle_refl.
Qed.
Lemma b_inv_front : forall k0 n cls rs o0 o1 dec_lb s, Forall obj_ok rs -> map bare [o0; o1] = map bare (build_objs 0 rs) -> b_inv k0 n cls rs o0 o1 dec_lb s ->
  steps_valid k0 (ps_log (r_p (br_r (bf_s s)))) /\
  (forall p, In p (bf_front s) -> pareto_optimal cls rs (nd_costs p) /\
     exists b, nd_sols p = [b] /\ inst_sol n cls b /\ costs rs (asg_of b) = nd_costs p /\
       (In (map axiom (sol_lits b)) (k_excl (kof k0 (r_p (br_r (bf_s s))))) \/ bf_at s = BoYielded b)) /\
  NoDup (map nd_costs (bf_front s)).
Proof.
  intros k0 n cls rs o0 o1 dec_lb s Hok A1 I. pose proof (bo_run _ _ _ _ (bv_ok _ _ _ _ _ _ _ _ I)) as R. split; [exact (wk_valid _ _ (ro_wok _ _ _ _ R))|].
  assert (Q : ForallOrdPairs left_above (map nd_costs (bf_front s))).
  { rewrite (bv_front _ _ _ _ _ _ _ _ I), map_map. apply (fop_map _ _ _ (fun x y => after o0 o1 y x)); [intros x y L; exact (after_left rs o0 o1 y x Hok A1 L)|].
    apply fop_rev. exact (bv_order _ _ _ _ _ _ _ _ I). }
  split; [|exact (left_above_nodup _ Q)].
  intros p Hp. rewrite (bv_front _ _ _ _ _ _ _ _ I) in Hp. apply in_map_iff in Hp. destruct Hp as (b & <- & Hb). apply in_rev in Hb.
  split; [exact (bv_opt _ _ _ _ _ _ _ _ I b Hb)|]. exists b. split; [reflexivity|]. apply in_app_or in Hb. destruct Hb as [Hb|Hb].
  - pose proof (bv_at _ _ _ _ _ _ _ _ I) as Q2. destruct (bf_at s) as [|w|inc w|b'|] eqn:Ea; try (destruct Hb; fail). destruct Hb as [<-|[]].
    split; [exact (proj1 (proj1 Q2))|]. split; [reflexivity|right; reflexivity].
  - split; [exact (bv_sols _ _ _ _ _ _ _ _ I b Hb)|]. split; [reflexivity|]. left. rewrite (ro_excl _ _ _ _ R). apply in_map_iff. exists b. split; [reflexivity|exact Hb].
Qed.
Lemma b_inv_finished : forall k0 n cls rs o0 o1 dec_lb s, Forall obj_ok rs -> inst_vars n cls rs -> map bare [o0; o1] = map bare (build_objs 0 rs) -> b_inv k0 n cls rs o0 o1 dec_lb s ->
  bf_finished k0 s -> is_pareto_front cls rs (map nd_costs (bf_front s)) /\ exists e, In e (k_all (kof k0 (r_p (br_r (bf_s s))))) /\ contradictory (snd e).
Proof.
  intros k0 n cls rs o0 o1 dec_lb s Hok Hv A1 I Fin. pose proof (b_inv_front k0 n cls rs o0 o1 dec_lb s Hok A1 I) as (_ & Opt & Once).
  pose proof (bv_ok _ _ _ _ _ _ _ _ I) as BO.
  assert (Con : exists e, In e (k_all (kof k0 (r_p (br_r (bf_s s))))) /\ contradictory (snd e)).
  { destruct Fin as [Ea|(Ea & core & id & C & Hi & Hin & Hsame)].
    - pose proof (bv_end _ _ _ _ _ _ _ _ I Ea) as X. destruct (br_end (bf_s s)) as [id|] eqn:E; [|contradiction]. destruct (bo_end _ _ _ _ BO id E) as (C & Y & Q). exists (id, C). split; assumption.
    - exists (id, C). split; [exact Hin|]. intros a _ X. cbn [snd] in X. rewrite (lb_same_holds pv_eqd _ _ Hsame) in X. apply lb_clause_holds in X. destruct X as (l & Hl & _).
      destruct core as [|y core]; [destruct Hl|]. exact (Hi y (or_introl eq_refl)). }
  split; [|exact Con]. split; [exact Once|]. intros c. split.
  - intros Hc. apply in_map_iff in Hc. destruct Hc as (p & <- & Hp). exact (proj1 (Opt p Hp)).
  - intros Hc. destruct (gen_complete k0 n cls rs (br_r (bf_s s)) Hok Hv (bo_run _ _ _ _ BO)) as (_ & Q); [rewrite (bv_two _ _ _ _ _ _ _ _ I); exact A1|exact (bv_sols _ _ _ _ _ _ _ _ I)|exact Con|].
    destruct (Q c Hc) as (d & Hd & <-). rewrite (bv_front _ _ _ _ _ _ _ _ I), map_map. apply in_map_iff. exists d. split; [reflexivity|]. apply -> in_rev. apply in_or_app. right. exact Hd.
Qed.
