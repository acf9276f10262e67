(** * Runs with proof after core boosting *)
From Coq Require Import List Arith ZArith Lia Bool.
From Verif Require Import Spec ApiSpec Base BaseLemmas Sem Ext Blk ApiTop OllData MTypes MKernel MPMinimal MPrepro MOll ReindexThm VeriPB VeriThm MProofs ProofThm ProofRun ProofCut MTracer TracerThm MReform ReformSpec ReformThm ReformRun ReformInv ReformFin MProofAlg ReifSpec ReifThm ReifRun ProofCert ProofFin LinsuCert BlockSpec BlockThm RunSpec RunThm RunSol BoostSpec.
Import ListNotations.
Local Open Scope nat_scope.

(** ** A new lower bound *)
(** what core boosting does not change *)
Definition bare (o : objective) : list (lit * nat) * nat * nat := (obj_iter o, obj_idx o, obj_unit_weight o).
Lemma bare_lb : forall lb o, bare (obj_set_lb lb o) = bare o.
Proof. intros lb [off ls i l|off uw ls i l|off i l]; reflexivity. Qed.
Definition bares (cs : list cobj) := map (fun c => (co_enc c, bare (co_obj c))) cs.
Lemma set_nth_map : forall {A B} (f : A -> B) i x y l, nth_error l i = Some x -> f y = f x -> map f (set_nth i y l) = map f l.
Proof.
  intros A B f i x y. induction i as [|i IH]; intros [|z l] E H; cbn [nth_error set_nth map] in *; try discriminate; [injection E as ->; rewrite H; reflexivity|].
  rewrite (IH l E H). reflexivity.
Qed.
Lemma boosted_bares : forall cs i c lb id, nth_error cs i = Some c -> bares (set_nth i (boosted lb id c) cs) = bares cs.
Proof. intros cs i c lb id E. apply (set_nth_map _ i c); [exact E|]. cbn [boosted co_enc co_obj]. rewrite bare_lb. reflexivity. Qed.

Lemma bare_icost : forall o o' a, bare o' = bare o -> icost o' a = icost o a.
Proof. intros o o' a E. unfold bare in E. injection E as E _ _. unfold icost. rewrite E. reflexivity. Qed.
Lemma bare_order : forall o o', bare o' = bare o -> obj_order o' = obj_order o.
Proof. intros o o' E. unfold bare in E. injection E as E1 _ E2. unfold obj_order. rewrite E1, E2. reflexivity. Qed.
(** the objectives one by one *)
Lemma bares_f : forall {X} (f : cobj -> X), (forall c c', co_enc c' = co_enc c -> bare (co_obj c') = bare (co_obj c) -> f c' = f c) ->
  forall cs cs', bares cs' = bares cs -> map f cs' = map f cs.
Proof.
  intros X f Hf. induction cs as [|c cs IH]; intros [|c' cs'] E; cbn [bares map] in *; try discriminate; [reflexivity|].
  pose proof (f_equal (@tl _) E) as E2. pose proof (f_equal (@hd_error _) E) as E1. cbn [tl hd_error] in E1, E2. f_equal; [|exact (IH cs' E2)].
  apply Hf; congruence.
Qed.
Lemma bares_in : forall cs cs' c', bares cs' = bares cs -> In c' cs' -> exists c, In c cs /\ co_enc c' = co_enc c /\ bare (co_obj c') = bare (co_obj c).
Proof.
  intros cs cs' c' E H. assert (X : In (co_enc c', bare (co_obj c')) (bares cs)) by (rewrite <- E; exact (in_map _ _ _ H)).
  apply in_map_iff in X. destruct X as (c & X & Hc). exists c. split; [exact Hc|]. split; congruence.
Qed.
Lemma bares_enc : forall cs cs', bares cs' = bares cs -> map co_enc cs' = map co_enc cs.
Proof. intros cs cs' E. apply (bares_f co_enc); [auto|exact E]. Qed.
Lemma bares_order : forall cs cs', bares cs' = bares cs -> map obj_order (map co_obj cs') = map obj_order (map co_obj cs).
Proof. intros cs cs' E. rewrite !map_map. apply bares_f; [|exact E]. intros c c' _ H. exact (bare_order _ _ H). Qed.
Lemma bares_cost : forall cs cs' a, bares cs' = bares cs -> map (fun c => icost (co_obj c) a) cs' = map (fun c => icost (co_obj c) a) cs.
Proof. intros cs cs' a E. apply (bares_f (fun c => icost (co_obj c) a)); [|exact E]. intros c c' _ H. exact (bare_icost _ _ a H). Qed.
Lemma for_sol_costs : forall cs b, map co_cost (for_sol cs b) = map (fun c => icost (co_obj c) (asg_of b)) cs.
Proof. intros cs b. unfold for_sol. rewrite map_map. reflexivity. Qed.
Lemma bares_better : forall cs cs' b d, bares cs' = bares cs -> better cs b d -> better cs' b d.
Proof.
  intros cs cs' b d E (c & Hc & L). destruct (bares_in cs' cs c (eq_sym E) Hc) as (c' & Hc' & _ & B). exists c'. split; [exact Hc'|].
  rewrite <- !(bare_icost _ _ _ B). exact L.
Qed.

(** ** Storing the lower bound *)
Lemma reform_ok : forall k0 n (sol : assignment -> Prop) cs cs' nv p L, (forall b, sol b -> total_to n b) -> run_ok k0 n sol (mkRst cs nv p L []) ->
  ps_bounds p = [] -> bares cs' = bares cs -> enc_fine (rm_ids L (k_all (kof k0 p))) cs' -> run_ok k0 n sol (mkRst cs' nv p L []).
Proof.
  intros k0 n sol cs cs' nv p L Hsol R Ebd E Hf. pose proof R as [O1 O2 O3 O4 O5 O6 O7 O8 O9 O10 O11 O12 O13 O14 O15]. cbn [r_cs r_nv r_p r_del r_done] in *.
  assert (Hobj : forall c l w, In c cs' -> In (l, w) (obj_iter (co_obj c)) -> lvar l <= n).
  { intros c l w Hc Hl. destruct (bares_in _ _ _ E Hc) as (c0 & Hc0 & _ & B). apply (O7 c0 l w Hc0). unfold bare in B. injection B as B _ _. rewrite <- B. exact Hl. }
  constructor; cbn [r_cs r_nv r_p r_del r_done]; try assumption.
  - rewrite (bares_order _ _ E). exact O1.
  - intros i v l d1 d2 H. rewrite Ebd in H. discriminate.
  - intros i c Hn. assert (X : nth_error (map (fun c => obj_idx (co_obj c)) cs) i = Some (obj_idx (co_obj c))).
    { rewrite <- (bares_f (fun c => obj_idx (co_obj c)) (fun c c' _ H => f_equal (fun x => snd (fst x)) H) cs cs' E). exact (map_nth_error (fun c => obj_idx (co_obj c)) i cs' Hn). }
    rewrite nth_error_map in X. destruct (nth_error cs i) as [c0|] eqn:E0; [|discriminate]. cbn [option_map] in X. injection X as <-. exact (O8 i c0 E0).
  - intros b Hb _. destruct (O15 b Hb (fun d Hd => match Hd with end)) as (fw & H). pose proof (Hsol b Hb) as T.
    pose proof H as [[R1 R2 R3 R4 R5 R6 R7 R8 R9 R10 R11 R12] HL HB HC HU].
    assert (Hv : forall a, ax_all a fw -> forall x, x <= n -> a (PVs x) = asg_of b x) by (intros a Ha x Hx; exact (lasting_vals _ _ _ _ _ _ _ _ a x H T Ha Hx)).
    exists fw. constructor; [constructor| | | |]; try assumption.
    + rewrite for_sol_obj, (bares_order _ _ E). rewrite for_sol_obj in R1. exact R1.
    + intros i v l d1 d2 X. rewrite Ebd in X. discriminate.
    + rewrite <- for_sol_ok. eapply Forall_impl; [|exact (proj1 Hf)]. intros c. apply cobj_ok_mono. intros e He. exact (rm_ids_in _ _ _ He).
    + rewrite for_sol_enc, for_sol_costs, (bares_enc _ _ E), (bares_cost _ _ _ E). rewrite for_sol_enc, for_sol_costs in R7. exact R7.
    + intros a Ha. split; [exact (proj1 (R10 a Ha))|]. intros c Hc. apply for_sol_in in Hc. destruct Hc as (c0 & Hc0 & ->). cbn [co_obj co_cost].
      apply (cost_of _ n); [intros l w; exact (Hobj c0 l w Hc0)|exact (Hv a Ha)].
    + apply Forall_forall. intros c Hc. apply for_sol_in in Hc. destruct Hc as (c0 & Hc0 & ->). intros Hlt a Ha. cbn [co_obj co_cost co_enc] in *.
      assert (Ec : icost (co_obj c0) (on_solver a) = icost (co_obj c0) (asg_of b)).
      { apply (cost_of _ n); [intros l w; exact (Hobj c0 l w Hc0)|exact (Hv a Ha)]. }
      rewrite <- Ec in *. apply (proj2 Hf c0 Hc0 a); [|exact Hlt]. intros e He. apply (proj1 (R10 a Ha)). exact (rm_ids_in _ _ _ He).
    + rewrite <- for_sol_ok. exact (proj1 Hf).
Qed.

(** ** Core boosting *)
Lemma obj_bares : forall cs cs', map co_obj cs' = map co_obj cs -> map bare (map co_obj cs') = map bare (map co_obj cs).
Proof. intros cs cs' E. rewrite E. reflexivity. Qed.
(** what holds during core boosting *)
Record boost_inv (k0 : chk) (n : nat) (sol : assignment -> Prop) (objs : list objective) (r : rst) : Prop := mkBoostInv {
  bi_ok : run_ok k0 n sol r;
  bi_done : r_done r = [];
  bi_bounds : ps_bounds (r_p r) = [];
  bi_vmap : ps_vmap (r_p r) = [];
  bi_objs : map bare (map co_obj (r_cs r)) = map bare objs
}.
Lemma boost_step_inv : forall k0 n (sol : assignment -> Prop) objs r r', (forall b, sol b -> total_to n b) -> boost_inv k0 n sol objs r -> boost_step k0 n sol r r' -> boost_inv k0 n sol objs r'.
Proof.
  intros k0 n sol objs r r' Hsol [R D B V O] S. destruct S as [r r' S E|cs i c lb id nv p L E Hf].
  - constructor; [exact (run_step_ok _ _ _ _ _ Hsol R S)|rewrite E; exact D| | |];
      destruct S as [cs nv p L done s del H1 H2 H3|cs nv p L done ids H1|cs nv p L done c id C H1 H2|cs cs' nv p L done ts v H1 H2 H3 H4 H5 p1 p2 H6|cs cs' nv p L done H1 H2 H3|cs nv p L done b w xs cl nv' p' H1 H2 H3 H4 H5 H6 H7 H8];
      cbn [r_p r_cs r_done] in *; try exact B; try exact V; try (rewrite H4; exact O); try (rewrite H1; exact O); try exact O.
    + exfalso. apply (f_equal (@length _)) in E. cbn [length] in E. lia.
    + exfalso. apply (f_equal (@length _)) in E. cbn [length] in E. lia.
  - cbn [r_p r_cs r_done] in *. pose proof (boosted_bares cs i c lb id E) as Eb. constructor; cbn [r_p r_cs r_done]; try assumption; [exact (reform_ok _ _ _ _ _ _ _ _ Hsol R B Eb Hf)|].
    rewrite <- O, !map_map. apply (bares_f (fun c => bare (co_obj c))); [auto|exact Eb].
Qed.
Lemma boosts_inv : forall k0 n (sol : assignment -> Prop) objs r r', (forall b, sol b -> total_to n b) -> boost_inv k0 n sol objs r -> boosts k0 n sol r r' -> boost_inv k0 n sol objs r'.
Proof. intros k0 n sol objs r r' Hsol R H. induction H as [r|r1 r2 r3 H IH S]; [exact R|]. exact (boost_step_inv _ _ _ _ _ _ Hsol (IH R) S). Qed.
Theorem boosted_ok : forall n cls rs cs r, inst_vars n cls rs -> map co_obj cs = build_objs 0 rs ->
  (forall c b, In c cs -> pe_extend (co_enc c) b = []) -> enc_fine (k_all (init_chk cls (build_objs 0 rs))) cs ->
  boosts (init_chk cls (build_objs 0 rs)) n (inst_sol n cls) (start_run n cls cs) r ->
  boost_inv (init_chk cls (build_objs 0 rs)) n (inst_sol n cls) (build_objs 0 rs) r.
Proof.
  intros n cls rs cs r Hv Eo Ex Hf H. apply (boosts_inv _ _ _ _ _ _ (fun b Hb => proj1 Hb)) with (2 := H).
  constructor; [exact (start_ok n cls rs cs Hv Eo Ex Hf)|reflexivity|reflexivity|reflexivity|]. cbn [start_run r_cs]. rewrite Eo. reflexivity.
Qed.

(** ** The lines of [oll] are events of core boosting *)
(** derivations of constraints that may be deleted, and deletions *)
Inductive lines : pst -> list nat -> pst -> list nat -> Prop :=
| ln_refl : forall p L, lines p L p L
| ln_pol : forall p L p1 L1 q, lines p L p1 L1 -> lines p L (snd (wr_id (SPol q) p1)) (ps_next p1 :: L1)
| ln_del : forall p L p1 L1 ids, lines p L p1 L1 -> incl ids L1 -> lines p L (wr (SDel (map CAbs ids) []) p1) L1.
Lemma lines_trans : forall p L p1 L1 p2 L2, lines p L p1 L1 -> lines p1 L1 p2 L2 -> lines p L p2 L2.
Proof. intros p L p1 L1 p2 L2 H1 H2. induction H2 as [p1 L1|p1 L1 p3 L3 q H2 IH|p1 L1 p3 L3 ids H2 IH Hi]; [exact H1|apply ln_pol; exact (IH H1)|apply ln_del; [exact (IH H1)|exact Hi]]. Qed.
Lemma lines_new : forall p L p' L', lines p L p' L' -> ps_next p <= ps_next p' /\ L' = new_ids p p' ++ L.
Proof.
  intros p L p' L' H. induction H as [p L|p L p1 L1 q H (Le & ->)|p L p1 L1 ids H (Le & ->) Hi].
  - split; [lia|]. unfold new_ids. rewrite Nat.sub_diag. reflexivity.
  - change (ps_next (snd (wr_id (SPol q) p1))) with (S (ps_next p1)). split; [lia|]. unfold new_ids. change (ps_next (snd (wr_id (SPol q) p1))) with (S (ps_next p1)).
    replace (S (ps_next p1) - ps_next p) with (S (ps_next p1 - ps_next p)) by lia. rewrite seq_S, rev_app_distr. cbn [rev app]. replace (ps_next p + (ps_next p1 - ps_next p)) with (ps_next p1) by lia. reflexivity.
  - split; [exact Le|reflexivity].
Qed.
Lemma lines_incl : forall p L p' L', lines p L p' L' -> incl L L'.
Proof. intros p L p' L' H. destruct (lines_new _ _ _ _ H) as (_ & ->). intros x Hx. apply in_or_app. right. exact Hx. Qed.
Lemma boosts_trans : forall k0 n (sol : assignment -> Prop) r1 r2 r3, boosts k0 n sol r1 r2 -> boosts k0 n sol r2 r3 -> boosts k0 n sol r1 r3.
Proof. intros k0 n sol r1 r2 r3 H1 H2. induction H2 as [r|r a b H2 IH S]; [exact H1|]. exact (bst_more _ _ _ _ _ _ (IH H1) S). Qed.
Lemma lines_boosts : forall k0 n (sol : assignment -> Prop) cs nv done p L p' L', lines p L p' L' -> steps_valid k0 (ps_log p') ->
  boosts k0 n sol (mkRst cs nv p L done) (mkRst cs nv p' L' done).
Proof.
  intros k0 n sol cs nv done p L p' L' H. induction H as [p L|p L p1 L1 q H IH|p L p1 L1 ids H IH Hi]; intros V; [apply bst_refl| |].
  - change (ps_log (snd (wr_id (SPol q) p1))) with (ps_log p1 ++ [SPol q]) in V. apply steps_valid_app in V. destruct V as (V1 & V2).
    apply (bst_more _ _ _ _ _ _ (IH V1)). apply bo_line; [|reflexivity]. apply (ev_derive k0 n sol cs nv p1 L1 done (SPol q) true); [exact Logic.I|exact (proj1 V2)|intros v []].
  - change (ps_log (wr (SDel (map CAbs ids) []) p1)) with (ps_log p1 ++ [SDel (map CAbs ids) []]) in V. apply steps_valid_app in V. destruct V as (V1 & _).
    apply (bst_more _ _ _ _ _ _ (IH V1)). apply bo_line; [|reflexivity]. apply ev_delete. exact Hi.
Qed.

Lemma used_mk : forall a b ids pend off p, used (MReform.mkRst a b ids pend off p) = map fst ids ++ map fst (ref_parts b) ++ map fst (pend_parts pend).
Proof. intros. unfold used, wused. cbn [rs_ids rs_refs rs_pend]. rewrite !map_app. reflexivity. Qed.
Lemma refs_insert : forall l d refs i, In i (map fst (ref_parts (hm_insert l d refs))) -> i = rt_pid d \/ In i (map fst (ref_parts refs)).
Proof.
  intros l d refs i. unfold ref_parts. rewrite !map_map. cbn [fst]. induction refs as [|[k x] refs IH]; cbn [hm_insert map snd]; [intros [<-|[]]; left; reflexivity|].
  destruct (lit_eqb l k); cbn [map snd]; intros [<-|H]; auto; [right; right; exact H|right; left; reflexivity|].
  destruct (IH H) as [X|X]; [left; exact X|right; right; exact X].
Qed.
Lemma refs_remove : forall l refs i, In i (map fst (ref_parts (hm_remove l refs))) -> In i (map fst (ref_parts refs)).
Proof.
  intros l refs i H. unfold ref_parts in *. rewrite map_map in *. apply in_map_iff in H. destruct H as ([k x] & <- & H). cbn [fst snd].
  apply hm_remove_in in H. exact (in_map (fun x => rt_pid (snd x)) _ _ (proj2 H)).
Qed.
Lemma refs_get : forall l refs d, hm_get l refs = Some d -> In (rt_pid d) (map fst (ref_parts refs)).
Proof.
  intros l refs d. unfold ref_parts. rewrite map_map. cbn [fst]. induction refs as [|[k x] refs IH]; cbn [hm_get map snd]; [discriminate|].
  destruct (lit_eqb l k); [intros E; injection E as ->; left; reflexivity|]. intros E. right. exact (IH E).
Qed.
Ltac in3 := repeat rewrite in_app_iff in *; tauto.
Lemma relax_lines : forall cw l s s' L, relax_lit cw l s = Some s' -> incl (used s) L -> exists L', lines (rs_p s) L (rs_p s') L' /\ incl (used s') L'.
Proof.
  intros cw l [inn refs ids pend off p] s' L E H. rewrite used_mk in H. unfold relax_lit in E. cbn [rs_in rs_refs rs_ids rs_pend rs_off rs_p] in *.
  destruct (hm_get l inn) as [w|]; [|discriminate]. destruct (w <? cw); [discriminate|].
  destruct (hm_get l refs) as [[t oidx tw pid]|] eqn:Er.
  2: { injection E as <-. exists L. cbn [rs_p]. split; [apply ln_refl|]. rewrite used_mk. exact H. }
  destruct (0 <? w - cw); [injection E as <-; exists L; cbn [rs_p]; split; [apply ln_refl|]; rewrite used_mk; exact H|].
  pose proof (refs_get _ _ _ Er) as Hp. cbn [rt_pid] in Hp.
  assert (Hpid : In pid L) by (apply H; in3).
  destruct (length (ti_leafs t) <=? oidx + 1).
  - injection E as <-. exists L. cbn [rs_p]. split; [apply ln_refl|]. rewrite used_mk, map_app. cbn [map fst]. intros i Hi. rewrite !in_app_iff in Hi.
    destruct Hi as [[Hi|[<-|[]]]|[Hi|Hi]]; [apply H; in3|exact Hpid|apply refs_remove in Hi; apply H; in3|apply H; in3].
  - cbn [wr_id] in E. set (q := snd (wr_id (SPol (reform_extend (PC (CAbs pid)) (ti_only_if t (oidx + 2)) oidx)) p)) in *.
    injection E as <-. cbn [rs_p]. exists (ps_next p :: L). split.
    + apply (ln_del p L q (ps_next p :: L) [pid]); [apply ln_pol; apply ln_refl|]. intros x [<-|[]]. right. exact Hpid.
    + rewrite used_mk. intros i Hi. rewrite !in_app_iff in Hi. destruct Hi as [Hi|[Hi|Hi]]; [right; apply H; in3| |right; apply H; in3].
      apply refs_insert in Hi. cbn [rt_pid] in Hi. destruct Hi as [->|Hi]; [left; reflexivity|]. apply refs_remove in Hi. right. apply H. in3.
Qed.
Lemma relaxs_lines : forall cw ls s s' L, relax_lits cw ls s = Some s' -> incl (used s) L -> exists L', lines (rs_p s) L (rs_p s') L' /\ incl (used s') L'.
Proof.
  intros cw ls. induction ls as [|l ls IH]; intros s s' L E H; cbn [relax_lits] in E; [injection E as <-; exists L; split; [apply ln_refl|exact H]|].
  destruct (relax_lit cw l s) as [s1|] eqn:E1; [|discriminate]. destruct (relax_lines _ _ _ _ _ E1 H) as (L1 & H1 & U1). destruct (IH _ _ _ E U1) as (L2 & H2 & U2).
  exists L2. split; [exact (lines_trans _ _ _ _ _ _ H1 H2)|exact U2].
Qed.
Lemma core_lines : forall core id s s' L, on_core core id s = Some s' -> incl (used s) L -> In id L -> exists L', lines (rs_p s) L (rs_p s') L' /\ incl (used s') L'.
Proof.
  intros core id s s' L E H Hid. unfold on_core in E. destruct (min_weights (rs_in s) core) as [cw|]; [|discriminate].
  destruct (relax_lits cw core _) as [s1|] eqn:E1; [|discriminate]. destruct (relaxs_lines _ _ _ _ L E1 H) as (L1 & H1 & U1). cbn [rs_p] in H1.
  pose proof (lines_incl _ _ _ _ H1 id Hid) as Hid1. exists L1.
  destruct s1 as [inn refs ids pend off p1]. rewrite used_mk in U1. cbn [rs_in rs_refs rs_ids rs_pend rs_off rs_p] in *.
  destruct (1 <? length core); injection E as <-; cbn [rs_p]; (split; [exact H1|]); rewrite used_mk.
  - unfold pend_parts. rewrite !map_app. cbn [map fst snd]. fold (pend_parts pend). intros i Hi. rewrite !in_app_iff in Hi.
    destruct Hi as [Hi|[Hi|[Hi|[<-|[]]]]]; try exact Hid1; apply U1; in3.
  - rewrite map_app. cbn [map fst]. intros i Hi. rewrite !in_app_iff in Hi. destruct Hi as [[Hi|[<-|[]]]|[Hi|Hi]]; try exact Hid1; apply U1; in3.
Qed.
Lemma reform_lines : forall ex def tu s s' L, reform_next ex def tu s = Some s' -> incl (used s) L -> exists L', lines (rs_p s) L (rs_p s') L' /\ incl (used s') L'.
Proof.
  intros ex def [t units] [inn refs ids pend off p] s' L E H. rewrite used_mk in H. unfold reform_next in E. cbn [rs_in rs_refs rs_ids rs_pend rs_off rs_p] in *.
  destruct pend as [|[[core w] id] pend]; [discriminate|]. unfold reform_core in E. destruct (exhaust_line ex (def t) t id units) as [line oidx].
  cbn [wr_id rs_p rs_in rs_refs rs_ids rs_pend rs_off] in E. set (q := snd (wr_id (SPol line) p)) in *.
  exists (ps_next p :: L). assert (HL : lines p L q (ps_next p :: L)) by (apply ln_pol; apply ln_refl).
  unfold pend_parts in H. cbn [map fst snd] in H. fold (pend_parts pend) in H.
  destruct (oidx <? length (ti_leafs t)); injection E as <-; cbn [rs_p]; (split; [exact HL|]); rewrite used_mk; intros i Hi; rewrite !in_app_iff in Hi.
  - destruct Hi as [Hi|[Hi|Hi]]; [right; apply H; in3| |right; apply H; cbn [In]; rewrite !in_app_iff; cbn [In]; tauto].
    apply refs_insert in Hi. destruct Hi as [->|Hi]; [left; reflexivity|right; apply H; in3].
  - rewrite map_app, in_app_iff in Hi. cbn [map fst In] in Hi. destruct Hi as [[Hi|[<-|[]]]|[Hi|Hi]]; [right; apply H; in3|left; reflexivity|right; apply H; in3|].
    right. apply H. rewrite !in_app_iff. cbn [In]. tauto.
Qed.
Lemma extend_lines : forall refs p refs' p' L, extend_refs refs p = (refs', p') -> incl (map fst (ref_parts refs)) L ->
  exists L', lines p L p' L' /\ incl (map fst (ref_parts refs')) L'.
Proof.
  induction refs as [|[l [t oidx tw pid]] refs IH]; intros p refs' p' L E H; cbn [extend_refs] in E.
  - injection E as <- <-. exists L. split; [apply ln_refl|exact H].
  - assert (Hpid : In pid L) by (apply H; left; reflexivity). assert (Hr : incl (map fst (ref_parts refs)) L) by (intros i Hi; apply H; right; exact Hi).
    destruct (length (ti_leafs t) <=? oidx + 1).
    + destruct (extend_refs refs p) as [r1 p1] eqn:E1. injection E as <- <-. destruct (IH _ _ _ _ E1 Hr) as (L1 & H1 & U1). exists L1. split; [exact H1|].
      intros i [<-|Hi]; [exact (lines_incl _ _ _ _ H1 _ Hpid)|exact (U1 i Hi)].
    + cbn [wr_id] in E. set (q := snd (wr_id (SPol (reform_all (PC (CAbs pid)) (ti_only_if t) (seq (oidx + 2) (length (ti_leafs t) - (oidx + 1))))) p)) in *.
      change (mkPst (S (ps_next p)) (ps_nextvar p) (ps_log p ++ [SPol (reform_all (PC (CAbs pid)) (ti_only_if t) (seq (oidx + 2) (length (ti_leafs t) - (oidx + 1))))]) (ps_vmap p) (ps_bounds p) (ps_reg p)) with q in E.
      destruct (extend_refs refs (wr (SDel [CAbs pid] []) q)) as [r1 p1] eqn:E1. injection E as <- <-.
      assert (H0 : lines p L (wr (SDel [CAbs pid] []) q) (ps_next p :: L)).
      { apply (ln_del p L q (ps_next p :: L) [pid]); [apply ln_pol; apply ln_refl|]. intros x [<-|[]]. right. exact Hpid. }
      destruct (IH _ _ _ (ps_next p :: L) E1) as (L1 & H1 & U1); [intros i Hi; right; exact (Hr i Hi)|]. exists L1. split; [exact (lines_trans _ _ _ _ _ _ H0 H1)|].
      intros i [<-|Hi]; [|exact (U1 i Hi)]. apply (lines_incl _ _ _ _ H1). left. reflexivity.
Qed.
Lemma finish_boosts : forall k0 n (sol : assignment -> Prop) cs nv done exact s id s' L, finish exact s = (id, s') -> steps_valid k0 (ps_log (rs_p s')) -> incl (used s) L ->
  (forall i, In i L -> i < ps_next (rs_p s)) ->
  exists L', boosts k0 n sol (mkRst cs nv (rs_p s) L done) (mkRst cs nv (rs_p s') L' done) /\
    forall i, In i L' -> id <> Some i /\ (In i L \/ In i (new_ids (rs_p s) (rs_p s'))).
Proof.
  intros k0 n sol cs nv done exact [inn refs ids pend off p] id s' L E V H HL. rewrite used_mk in H. unfold finish in E. cbn [rs_in rs_refs rs_ids rs_pend rs_off rs_p] in *.
  assert (Q : exists refs1 p1 L1, (if exact then extend_refs refs p else (refs, p)) = (refs1, p1) /\ lines p L p1 L1).
  { destruct exact; [|exists refs, p, L; split; [reflexivity|apply ln_refl]]. destruct (extend_refs refs p) as [refs1 p1] eqn:E1.
    destruct (extend_lines _ _ _ _ L E1) as (L1 & H1 & _); [intros i Hi; apply H; in3|]. exists refs1, p1, L1. split; [reflexivity|exact H1]. }
  destruct Q as (refs1 & p1 & L1 & Eq & H1). rewrite Eq in E. pose proof (lines_new _ _ _ _ H1) as (Hle & EL).
  destruct (sum_ops (ids ++ ref_parts refs1)) as [ops|].
  - cbn [wr_id] in E. set (q := snd (wr_id (SPol ops) p1)) in *.
    change (mkPst (S (ps_next p1)) (ps_nextvar p1) (ps_log p1 ++ [SPol ops]) (ps_vmap p1) (ps_bounds p1) (ps_reg p1)) with q in E. injection E as <- <-. cbn [rs_p] in *.
    assert (Vq : steps_valid k0 (ps_log q)).
    { destruct ids as [|x ids]; [exact V|]. change (ps_log (wr (SDel (map (fun cw => CAbs (fst cw)) (x :: ids)) []) q)) with (ps_log q ++ [SDel (map (fun cw : nat * nat => CAbs (fst cw)) (x :: ids)) []]) in V.
      apply steps_valid_app in V. exact (proj1 V). }
    assert (V1 := Vq). change (ps_log q) with (ps_log p1 ++ [SPol ops]) in V1. apply steps_valid_app in V1. destruct V1 as (V1 & V2).
    exists L1. split.
    + assert (B : boosts k0 n sol (mkRst cs nv p L done) (mkRst cs nv q L1 done)).
      { apply (bst_more _ _ _ _ _ _ (lines_boosts k0 n sol cs nv done _ _ _ _ H1 V1)). apply bo_line; [|reflexivity].
        apply (ev_derive k0 n sol cs nv p1 L1 done (SPol ops) false); [exact Logic.I|exact (proj1 V2)|intros v []]. }
      destruct ids as [|x ids]; [exact B|]. apply (bst_more _ _ _ _ _ _ B). apply bo_line; [|reflexivity].
      replace (map (fun cw => CAbs (fst cw)) (x :: ids)) with (map CAbs (map fst (x :: ids))) by (rewrite map_map; reflexivity). apply ev_delete.
      intros i Hi. apply (lines_incl _ _ _ _ H1). apply H. apply in_or_app. left. exact Hi.
    + intros i X. rewrite EL in X. apply in_app_or in X.
      assert (En : ps_next (match ids with [] => q | _ :: _ => wr (SDel (map (fun cw => CAbs (fst cw)) ids) []) q end) = S (ps_next p1)) by (destruct ids; reflexivity).
      split.
      * intros Y. injection Y as Y. destruct X as [X|X]; [|pose proof (HL _ X); lia]. unfold new_ids in X. apply in_rev in X. apply in_seq in X. lia.
      * destruct X as [X|X]; [right|left; exact X]. unfold new_ids in *. apply in_rev in X. apply -> in_rev. apply in_seq in X. apply in_seq. rewrite En. lia.
  - injection E as <- <-. cbn [rs_p] in *. exists L1. split; [exact (lines_boosts k0 n sol cs nv done _ _ _ _ H1 V)|]. intros i X. split; [discriminate|].
    rewrite EL in X. apply in_app_or in X. destruct X as [X|X]; [right|left]; exact X.
Qed.

Lemma step_del : forall k0 n (sol : assignment -> Prop) r r', boost_step k0 n sol r r' -> incl (r_del r) (r_del r').
Proof.
  intros k0 n sol r r' [x y S _|cs i c lb id nv p L E Hf]; [|intros z Hz; exact Hz].
  destruct S as [cs nv p L done s del H1 H2 H3|cs nv p L done ids H1|cs nv p L done c id C H1 H2|cs cs' nv p L done ts v H1 H2 H3 H4 H5 p1 p2 H6|cs cs' nv p L done H1 H2 H3|cs nv p L done b w xs cl nv' p' H1 H2 H3 H4 H5 H6 H7 H8];
    cbn [r_del]; intros z Hz; try exact Hz; [destruct del; [right; exact Hz|exact Hz]|right; exact Hz].
Qed.
Lemma boosts_del : forall k0 n (sol : assignment -> Prop) r r', boosts k0 n sol r r' -> incl (r_del r) (r_del r').
Proof. intros k0 n sol r r' H. induction H as [r|r1 r2 r3 H IH S]; intros z Hz; [exact Hz|]. exact (step_del _ _ _ _ _ S z (IH z Hz)). Qed.
Lemma oll_boosts_run : forall k0 n (sol : assignment -> Prop) F es s s' r r', objinv k0 F s -> run_pre false ti_if k0 es s -> run_revents false ti_if es s = Some s' ->
  oll_boosts k0 n sol es s r r' -> r_p r = rs_p s -> incl (used s) (r_del r) ->
  boosts k0 n sol r r' /\ r_p r' = rs_p s' /\ incl (used s') (r_del r').
Proof.
  intros k0 n sol F es. induction es as [|e es IH]; intros s s' r r' I P E B Ep U; cbn [run_revents oll_boosts run_pre] in *.
  - injection E as <-. subst r'. split; [apply bst_refl|]. split; assumption.
  - destruct P as (P1 & P2). destruct (run_revent false ti_if e s) as [s1|] eqn:E1; [|contradiction]. pose proof (event_inv _ _ _ _ _ _ _ I P1 E1) as I1.
    pose proof (ri_wok _ _ _ I1) as W1.
    assert (Q : forall L', lines (rs_p s) (r_del r) (rs_p s1) L' -> incl (used s1) L' -> oll_boosts k0 n sol es s1 (after_lines (rs_p s) (rs_p s1) r) r' ->
      boosts k0 n sol r r' /\ r_p r' = rs_p s' /\ incl (used s') (r_del r')).
    { intros L' H1 U1 B1. destruct (lines_new _ _ _ _ H1) as (_ & ->).
      destruct (IH s1 s' _ r' I1 P2 E B1 eq_refl U1) as (X & Y). split; [|exact Y]. apply (boosts_trans _ _ _ _ _ _ (lines_boosts k0 n sol (r_cs r) (r_nv r) (r_done r) _ _ _ _ H1 (wk_valid _ _ W1))) in X.
      destruct r as [rcs rnv rp rL rd]. cbn [r_cs r_nv r_p r_del r_done] in *. rewrite Ep. exact X. }
    destruct e as [core id|t units|p]; cbn [run_revent] in E1.
    + destruct B as (Hid & B). destruct (core_lines _ _ _ _ _ E1 U Hid) as (L' & H1 & U1). exact (Q L' H1 U1 B).
    + destruct (reform_lines _ _ _ _ _ _ E1 U) as (L' & H1 & U1). exact (Q L' H1 U1 B).
    + injection E1 as <-. destruct B as (r1 & B1 & Er & B). pose proof (boosts_del _ _ _ _ _ B1) as D.
      destruct (IH _ s' r1 r' I1 P2 E B) as (X & Y); [exact Er|intros i Hi; exact (D i (U i Hi))|]. split; [exact (boosts_trans _ _ _ _ _ _ B1 X)|exact Y].
Qed.
Lemma event_used : forall ex def e s s', run_revent ex def e s = Some s' -> wused s' = [] -> wused s = [] /\ rs_off s' = rs_off s.
Proof.
  intros ex def e s s' E H. destruct e as [core id|t units|p]; cbn [run_revent] in E.
  - exfalso. unfold on_core in E. destruct (min_weights (rs_in s) core) as [cw|]; [|discriminate]. destruct (relax_lits cw core _) as [s1|]; [|discriminate].
    destruct (1 <? length core); injection E as <-; unfold wused in H; cbn [rs_ids rs_refs rs_pend] in H.
    + apply app_eq_nil in H. destruct H as (_ & H). apply app_eq_nil in H. destruct H as (_ & H). unfold pend_parts in H. rewrite map_app in H. apply app_eq_nil in H. destruct H as (_ & H). discriminate.
    + apply app_eq_nil in H. destruct H as (H & _). apply app_eq_nil in H. destruct H as (_ & H). discriminate.
  - exfalso. unfold reform_next in E. destruct (rs_pend s) as [|[[core w] id] pend]; [discriminate|]. unfold reform_core in E. destruct (exhaust_line ex (def t) t id units) as [line oidx].
    cbn [wr_id rs_p rs_in rs_refs rs_ids rs_pend rs_off] in E. destruct (oidx <? length (ti_leafs t)); injection E as <-; unfold wused in H; cbn [rs_ids rs_refs rs_pend] in H.
    + apply app_eq_nil in H. destruct H as (_ & H). apply app_eq_nil in H. destruct H as (H & _). destruct (rs_refs s) as [|[k x] refs]; cbn [hm_insert] in H; [discriminate|]. destruct (lit_eqb _ k); discriminate.
    + apply app_eq_nil in H. destruct H as (H & _). apply app_eq_nil in H. destruct H as (_ & H). discriminate.
  - injection E as <-. split; [exact H|reflexivity].
Qed.
Lemma run_used : forall ex def es s s', run_revents ex def es s = Some s' -> wused s' = [] -> wused s = [] /\ rs_off s' = rs_off s.
Proof.
  intros ex def es. induction es as [|e es IH]; intros s s' E H; cbn [run_revents] in E; [injection E as <-; split; [exact H|reflexivity]|].
  destruct (run_revent ex def e s) as [s1|] eqn:E1; [|discriminate]. destruct (IH _ _ E H) as (H1 & O1). destruct (event_used _ _ _ _ _ E1 H1) as (H2 & O2). split; [exact H2|congruence].
Qed.
Lemma finish_none : forall exact s s', finish exact s = (None, s') -> rs_pend s = [] -> wused s = [].
Proof.
  intros exact s s' E Hp. unfold finish in E. destruct (if exact then extend_refs (rs_refs s) (rs_p s) else (rs_refs s, rs_p s)) as [refs p] eqn:Ex.
  destruct (sum_ops (rs_ids s ++ ref_parts refs)) as [ops|] eqn:Es; [cbn [wr_id] in E; discriminate|]. destruct (rs_ids s ++ ref_parts refs) as [|[c w] x] eqn:El; [|discriminate].
  apply app_eq_nil in El. destruct El as (E1 & E2). unfold wused. rewrite E1, Hp. cbn [pend_parts map app]. rewrite app_nil_r.
  destruct refs as [|y refs]; [|discriminate]. destruct exact; [|injection Ex as -> _; reflexivity]. destruct (rs_refs s) as [|[l [t oidx tw pid]] rr]; [reflexivity|]. exfalso. cbn [extend_refs wr_id] in Ex.
  destruct (length (ti_leafs t) <=? oidx + 1); [destruct (extend_refs rr (rs_p s)) as [a b]; discriminate|]. destruct (extend_refs rr _) as [a b]; discriminate.
Qed.
Lemma in_set_nth : forall {A} i (x y : A) l, In x (set_nth i y l) -> x = y \/ In x l.
Proof.
  intros A i x y. induction i as [|i IH]; intros [|z l] H; cbn [set_nth] in H; try contradiction.
  - destruct H as [<-|H]; [left; reflexivity|right; right; exact H].
  - destruct H as [<-|H]; [right; left; reflexivity|]. destruct (IH l H) as [X|X]; [left; exact X|right; right; exact X].
Qed.
(** an objective whose encoding has not been built *)
Lemma unbuilt_fine : forall es c lb id, unbuilt (co_enc c) ->
  match id with
  | None => lb = 0
  | Some i => exists R rs, In (i, R) es /\ reform_says R (co_obj c) rs lb /\ forall t, In t rs -> (0 <= fst t)%Z
  end -> cobj_ok es (boosted lb id c) /\ outs_mean es (boosted lb id c).
Proof.
  intros es c lb id (U1 & U2 & U3) H. assert (El : obj_lb (obj_set_lb lb (co_obj c)) = lb) by (destruct (co_obj c); reflexivity).
  assert (Ei : forall a, icost (obj_set_lb lb (co_obj c)) a = icost (co_obj c) a) by (intros a; apply bare_icost; apply bare_lb).
  split.
  - destruct id as [i|].
    + destruct H as (R & rs & HR & Hs & Hp). exists rs. constructor; cbn [boosted co_enc co_obj co_reform co_cost].
      * exists R. split; [exact HR|]. intros a. rewrite Ei, El. apply Hs.
      * exact Hp.
      * rewrite U1. discriminate.
      * intros _ v olit j d X. rewrite U3 in X. discriminate.
      * rewrite U2. discriminate.
    + exists (obj_terms (obj_set_lb lb (co_obj c))). constructor; cbn [boosted co_enc co_obj co_reform co_cost].
      * split; [reflexivity|]. rewrite El. exact H.
      * intros t Ht. apply in_map_iff in Ht. destruct Ht as (lw & <- & _). cbn [fst]. lia.
      * rewrite U1. discriminate.
      * intros _ v olit j d X. rewrite U3 in X. discriminate.
      * rewrite U2. discriminate.
  - intros a _ _. cbn [boosted co_enc]. split; [intros x xs X; rewrite U2 in X; discriminate|intros olit j _ X; rewrite U3 in X; discriminate].
Qed.
Lemma terms_pos : forall exact s t, In t (reform_terms exact s) -> (0 <= fst t)%Z.
Proof.
  intros exact s t H. unfold reform_terms in H. apply in_app_or in H. destruct H as [H|H].
  - apply in_map_iff in H. destruct H as (x & <- & _). cbn [fst]. lia.
  - destruct exact; [|destruct H]. unfold late_terms in H. apply in_flat_map in H. destruct H as (x & _ & H). apply in_map_iff in H. destruct H as (j & <- & _). cbn [fst]. lia.
Qed.

(** ** From the costs of the objectives to the costs of the instance *)
Lemma bare_ic : forall objs objs' a, map bare objs' = map bare objs -> ic objs' a = ic objs a.
Proof.
  intros objs objs' a. revert objs'. induction objs as [|o objs IH]; intros [|o' objs'] E; cbn [map] in E; try discriminate; [reflexivity|].
  pose proof (f_equal (@tl _) E) as E2. pose proof (f_equal (@hd_error _) E) as E1. cbn [tl hd_error] in E1, E2. unfold ic in *. cbn [map]. f_equal; [apply bare_icost; congruence|exact (IH objs' E2)].
Qed.
Lemma all_le : forall cs b d objs, map bare (map co_obj cs) = map bare objs -> (forall c, In c cs -> icost (co_obj c) (asg_of d) <= icost (co_obj c) (asg_of b)) ->
  vle (ic objs (asg_of d)) (ic objs (asg_of b)).
Proof.
  intros cs b d objs E X. rewrite <- !(bare_ic _ _ _ E). unfold vle, ic. rewrite !map_map. clear -X. induction cs as [|c l IH]; [constructor|].
  cbn [map]. constructor; [exact (X c (or_introl eq_refl))|]. apply IH. intros c' Hc'. apply X. right. exact Hc'.
Qed.
Lemma gen_keeps : forall k0 n cls objs r b, run_ok k0 n (inst_sol n cls) r -> map bare (map co_obj (r_cs r)) = map bare objs -> inst_sol n cls b ->
  (forall d, In d (r_done r) -> ~ vle (ic objs (asg_of d)) (ic objs (asg_of b))) ->
  exists a, proof_holds a (kof k0 (r_p r)) /\ forall x, x <= n -> a (PVs x) = asg_of b x.
Proof.
  intros k0 n cls objs r b R E Hb Hd. apply (run_extends k0 n (inst_sol n cls) r b (fun b Hb => proj1 Hb) R Hb). intros d Hin.
  destruct (better_dec (r_cs r) b d) as [X|X]; [exact X|]. exfalso. exact (Hd d Hin (all_le _ _ _ _ E X)).
Qed.
Lemma gen_complete : forall k0 n cls rs r, Forall obj_ok rs -> inst_vars n cls rs -> run_ok k0 n (inst_sol n cls) r -> map bare (map co_obj (r_cs r)) = map bare (build_objs 0 rs) ->
  (forall d, In d (r_done r) -> inst_sol n cls d) -> (exists e, In e (k_all (kof k0 (r_p r))) /\ contradictory (snd e)) ->
  (forall a, sat a cls -> exists d, In d (r_done r) /\ sat (asg_of d) cls /\ weakly_dominates (costs rs (asg_of d)) (costs rs a)) /\
  (forall c, pareto_optimal cls rs c -> exists d, In d (r_done r) /\ costs rs (asg_of d) = c).
Proof.
  intros k0 n cls rs r Hok Hv R E D (e & He & Hc).
  assert (Q : forall a, sat a cls -> exists d, In d (r_done r) /\ sat (asg_of d) cls /\ weakly_dominates (costs rs (asg_of d)) (costs rs a)).
  { intros a Ha. set (b := as_sol n a).
    assert (Hb : inst_sol n cls b).
    { split; [apply as_sol_total|]. apply (sat_ext cls n a); [exact (proj1 Hv)| |exact Ha]. intros x Hx. symmetry. apply as_sol_val. exact Hx. }
    destruct (done_dec (r_cs r) b (r_done r)) as [X|(d & Hd & X)].
    - exfalso. destruct (run_extends k0 n (inst_sol n cls) r b (fun b Hb => proj1 Hb) R Hb X) as (x & Hx & _). apply (Hc x); [intros l []|exact (Hx e He)].
    - exists d. split; [exact Hd|]. split; [exact (proj2 (D d Hd))|].
      assert (Ecost : costs rs a = costs rs (asg_of b)).
      { unfold costs. apply map_ext_in. intros o Ho. unfold obj_value. f_equal. f_equal. apply wsum_ext. intros [l w] Hl. cbn [fst]. unfold lit_true.
        rewrite <- (as_sol_val n a (lvar l)); [reflexivity|]. exact (proj2 Hv o l w Ho Hl). }
      rewrite Ecost. apply (ic_le rs Hok 0). exact (all_le _ _ _ _ E X). }
  split; [exact Q|]. intros c ((a & Ha & Ea) & Hopt). destruct (Q a Ha) as (d & Hd & Hs & Hw). exists d. split; [exact Hd|]. rewrite Ea in Hw.
  destruct (list_eq_dec Z.eq_dec (costs rs (asg_of d)) c) as [X|X]; [exact X|]. exfalso. apply (Hopt (asg_of d) Hs). split; assumption.
Qed.
