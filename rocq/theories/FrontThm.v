(** * The front of a run with proof logging *)
From Coq Require Import List Arith ZArith Lia Bool.
From Verif Require Import Spec ApiSpec Base BaseLemmas Sem Ext MTypes MKernel MPMinimal MPrepro MOll VeriPB VeriThm MProofs ProofThm ProofRun ProofCut ProofCert TracerThm MReform ReformSpec MProofAlg ReifSpec BlockSpec BlockThm RunSpec RunThm RunSol BoostSpec BoostThm MProofRun.
Import ListNotations.
Local Open Scope nat_scope.

(** [d] is at least as good as [b] in all objectives *)
Definition le_all (cs : list cobj) (d b : assignment) : Prop := forall c, In c cs -> icost (co_obj c) (asg_of d) <= icost (co_obj c) (asg_of b).
Lemma better_not_le : forall cs b d, better cs b d -> ~ le_all cs d b.
Proof. intros cs b d (c & Hc & L) H. specialize (H c Hc). lia. Qed.
Lemma le_all_trans : forall cs a b c, le_all cs a b -> le_all cs b c -> le_all cs a c.
Proof. intros cs a b c H1 H2 x Hx. specialize (H1 x Hx). specialize (H2 x Hx). lia. Qed.
Lemma better_objs : forall cs cs' b d, map co_obj cs' = map co_obj cs -> better cs b d -> better cs' b d.
Proof.
  intros cs cs' b d E (c & Hc & L). apply (in_map co_obj) in Hc. rewrite <- E in Hc. apply in_map_iff in Hc. destruct Hc as (c' & Ec & Hc'). exists c'. split; [exact Hc'|]. rewrite Ec. exact L.
Qed.
Lemma fop_objs : forall cs cs' D, map co_obj cs' = map co_obj cs -> ForallOrdPairs (better cs) D -> ForallOrdPairs (better cs') D.
Proof.
  intros cs cs' D E H. induction H as [|d D H1 H2 IH]; constructor; [|exact IH]. apply Forall_forall. intros x Hx. exact (better_objs _ _ _ _ E (proj1 (Forall_forall _ _) H1 x Hx)).
Qed.
Lemma le_all_objs : forall cs cs' b d, map co_obj cs' = map co_obj cs -> le_all cs b d -> le_all cs' b d.
Proof.
  intros cs cs' b d E H c Hc. apply (in_map co_obj) in Hc. rewrite E in Hc. apply in_map_iff in Hc. destruct Hc as (c' & Ec & Hc'). rewrite <- Ec. exact (H c' Hc').
Qed.

(** the objectives that the costs of the points are computed with *)
Definition ext_view (cs : list cobj) : list objective := map (fun c => obj_set_lb 0 (co_obj c)) cs.
Lemma ext_one_lb : forall lb o c, externalize_one (obj_set_lb lb o) c = externalize_one o c.
Proof. intros lb [off ls i l|off uw ls i l|off i l] c; reflexivity. Qed.
Lemma ext_all_view : forall cs v, externalize_all (map co_obj cs) v = externalize_all (ext_view cs) v.
Proof.
  induction cs as [|c cs IH]; intros [|x v]; try reflexivity. cbn [map ext_view externalize_all]. rewrite ext_one_lb, IH. reflexivity.
Qed.
Lemma set_lb_twice : forall a b o, obj_set_lb a (obj_set_lb b o) = obj_set_lb a o.
Proof. intros a b [off ls i l|off uw ls i l|off i l]; reflexivity. Qed.
Lemma ext_view_objs : forall cs cs', map co_obj cs' = map co_obj cs -> ext_view cs' = ext_view cs.
Proof. intros cs cs' E. unfold ext_view. rewrite <- !(map_map co_obj (obj_set_lb 0)), E. reflexivity. Qed.
Lemma boosts_view : forall k0 n (sol : assignment -> Prop) r r', boosts k0 n sol r r' -> ext_view (r_cs r') = ext_view (r_cs r).
Proof.
  intros k0 n sol r r' H. induction H as [r|r1 r2 r3 H IH S]; [reflexivity|]. rewrite <- IH. destruct S as [r r' S E|cs i c lb id nv p L E Hf].
  - apply ext_view_objs. assert (S1 : runs k0 n sol r r') by (apply (runs_step _ _ _ _ r); [apply runs_refl|exact S]). exact (proj1 (runs_done _ _ _ _ _ S1)).
  - cbn [r_cs]. unfold ext_view. apply (set_nth_map _ i c); [exact E|]. cbn [boosted co_obj]. apply set_lb_twice.
Qed.

(** what one step of the run does to the state *)
Lemma run_step_objs : forall k0 n (sol : assignment -> Prop) r r', run_step k0 n sol r r' -> map co_obj (r_cs r') = map co_obj (r_cs r).
Proof. intros k0 n sol r r' S. assert (S1 : runs k0 n sol r r') by (apply (runs_step _ _ _ _ r); [apply runs_refl|exact S]). exact (proj1 (runs_done _ _ _ _ _ S1)). Qed.
Lemma run_step_better : forall k0 n (sol : assignment -> Prop) r r' b, run_step k0 n sol r r' -> r_done r' = b :: r_done r ->
  sol b /\ forall d, In d (r_done r) -> better (r_cs r) b d.
Proof.
  intros k0 n sol r r' b S E. destruct S as [cs nv p L done s del H1 H2 H3|cs nv p L done ids H1|cs nv p L done c id C H1 H2|cs cs' nv p L done ts v H1 H2 H3 H4 H5 p1 p2 H6|cs cs' nv p L done H1 H2 H3|cs nv p L done b0 x xs cl nv' p' H1 H2 H3 H4 H5 H6 H7 H8]; cbn [r_done r_cs] in *;
    try (exfalso; apply (f_equal (@List.length _)) in E; cbn [List.length] in E; lia).
  assert (b0 = b) as -> by congruence. split; assumption.
Qed.

(** ** Invariant *)
Definition dominated_in (cs : list cobj) (done : list assignment) (d : assignment) : Prop :=
  exists e, In e done /\ le_all cs e d /\ better cs e d.
Definition sols_of (F : list (nd_point assignment)) : list assignment := flat_map nd_sols F.
(** a candidate that has been blocked is in the front, or dominated by a later one, or the current one, or weakly dominated by the solution
    just found *)
Definition accounted (at_ : place) (cs : list cobj) (done : list assignment) (F : list (nd_point assignment)) (n : nat) (d : assignment) : Prop :=
  In d (sols_of F) \/ dominated_in cs done d \/
  match at_ with AtOuter => False | AtFound w => le_all cs (truncate w n) d | AtBlocked b => d = b end.
Record f_inv (k0 : chk) (n : nat) (cls : list clause) (rs : list raw_obj) (s : fstate) : Prop := mkFInv {
  fi_run : run_ok k0 n (inst_sol n cls) (f_r s);
  fi_objs : map bare (map co_obj (r_cs (f_r s))) = map bare (build_objs 0 rs);
  fi_view : forall v, externalize_all (map co_obj (r_cs (f_r s))) v = externalize_all (build_objs 0 rs) v;
  fi_sols : forall d, In d (r_done (f_r s)) -> inst_sol n cls d;
  (** the clauses handed to the solver exclude everything a blocked candidate weakly dominates *)
  fi_barrier : forall w, sat w cls -> models_handed w (r_p (f_r s)) -> forall d, In d (r_done (f_r s)) ->
    exists c, In c (r_cs (f_r s)) /\ icost (co_obj c) w < icost (co_obj c) (asg_of d);
  fi_acc : forall d, In d (r_done (f_r s)) -> accounted (f_at s) (r_cs (f_r s)) (r_done (f_r s)) (f_front s) n d;
  fi_at : match f_at s with
    | AtOuter => True
    | AtFound w => inst_sol n cls (truncate w n) /\ forall d, In d (r_done (f_r s)) -> better (r_cs (f_r s)) (truncate w n) d
    | AtBlocked b => exists rest, r_done (f_r s) = b :: rest /\ (forall d, In d rest -> better (r_cs (f_r s)) b d) /\ ~ In b (sols_of (f_front s))
    end;
  fi_front : forall p, In p (f_front s) -> exists b, p = mkNd (costs rs (asg_of b)) [b] /\ In b (r_done (f_r s)) /\ pareto_optimal cls rs (nd_costs p);
  fi_once : NoDup (map nd_costs (f_front s));
  fi_cands : ForallOrdPairs (better (r_cs (f_r s))) (r_done (f_r s))
}.

Section Front.
Variables (k0 : chk) (n : nat) (cls : list clause) (rs : list raw_obj).
Hypothesis Hok : Forall obj_ok rs.
Hypothesis Hfit : Forall obj_fits rs.
Hypothesis Hv : inst_vars n cls rs.
Notation sol := (inst_sol n cls).
Let Htot : forall b, sol b -> total_to n b := fun b Hb => proj1 Hb.

Lemma bare_cost : forall cs a, map bare (map co_obj cs) = map bare (build_objs 0 rs) -> map (fun c => icost (co_obj c) a) cs = ic (build_objs 0 rs) a.
Proof. intros cs a E. rewrite <- (bare_ic _ _ a E). unfold ic. rewrite map_map. reflexivity. Qed.
Lemma le_iff : forall cs d b, map bare (map co_obj cs) = map bare (build_objs 0 rs) -> (le_all cs d b <-> weakly_dominates (costs rs (asg_of d)) (costs rs (asg_of b))).
Proof.
  intros cs d b E. rewrite <- (ic_le rs Hok 0). rewrite <- !(bare_cost cs _ E). unfold le_all, vle. split; intros H.
  - clear E. induction cs as [|c cs IH]; [constructor|]. cbn [map]. constructor; [exact (H c (or_introl eq_refl))|]. apply IH. intros x Hx. apply H. right. exact Hx.
  - clear E. induction cs as [|c cs IH]; [intros c []|]. cbn [map] in H. inversion H as [|x y l l' H1 H2 EX EY]. subst. intros z [<-|Hz]; [exact H1|exact (IH H2 z Hz)].
Qed.
Lemma better_iff : forall cs b d, map bare (map co_obj cs) = map bare (build_objs 0 rs) -> (better cs b d <-> ~ weakly_dominates (costs rs (asg_of d)) (costs rs (asg_of b))).
Proof.
  intros cs b d E. rewrite <- (le_iff cs d b E). split; [apply better_not_le|]. intros H. destruct (better_dec cs b d) as [X|X]; [exact X|]. exfalso. apply H. exact X.
Qed.
Lemma trunc_cost : forall r w c, run_ok k0 n sol r -> In c (r_cs r) -> icost (co_obj c) (asg_of (truncate w n)) = icost (co_obj c) (asg_of w).
Proof.
  intros r w c R Hc. apply wsum_ext. intros [l x] Hl. cbn [fst]. unfold lit_true.
  replace (asg_of (truncate w n) (lvar l)) with (asg_of w (lvar l)); [reflexivity|].
  pose proof (ro_objs _ _ _ _ R c l x Hc Hl) as Hx. unfold asg_of, truncate, var_value. rewrite firstn_nth_error by lia. reflexivity.
Qed.
Lemma trunc_sol : forall r w, solver_sat n cls r w -> sol (truncate w n).
Proof.
  intros r w (Ht & Hs & _). split; [exact Ht|]. apply (sat_ext cls n (asg_of w)); [exact (proj1 Hv)| |exact Hs].
  intros x Hx. unfold asg_of, truncate, var_value. rewrite firstn_nth_error by lia. reflexivity.
Qed.
(** a solution of the solver is better than all blocked candidates *)
Lemma found_better : forall s w, f_inv k0 n cls rs s -> solver_sat n cls (f_r s) w -> forall d, In d (r_done (f_r s)) -> better (r_cs (f_r s)) (truncate w n) d.
Proof.
  intros s w I (Ht & Hs & Hm) d Hd. destruct (fi_barrier _ _ _ _ _ I (asg_of w) Hs Hm d Hd) as (c & Hc & L). exists c. split; [exact Hc|]. rewrite (trunc_cost _ w c (fi_run _ _ _ _ _ I) Hc). exact L.
Qed.
Lemma dominating_true : forall (P : list lit -> Prop) cs A, (forall c as_, In c cs -> pe_enforce_ub (co_enc c) (co_cost c) = Some as_ -> P as_) ->
  P [] -> (forall a b, P a -> P b -> P (a ++ b)) -> dominating_assumps cs = Some A -> P A.
Proof.
  intros P cs. induction cs as [|c cs IH]; intros A H P0 Pa E; cbn [dominating_assumps] in E; [injection E as <-; exact P0|].
  destruct (pe_enforce_ub (co_enc c) (co_cost c)) as [as_|] eqn:Ee; [|discriminate]. destruct (dominating_assumps cs) as [r|] eqn:Er; [|discriminate]. injection E as <-.
  apply Pa; [exact (H c as_ (or_introl eq_refl) Ee)|]. apply IH; [|exact P0|exact Pa|reflexivity]. intros c' as' Hc'. apply H. right. exact Hc'.
Qed.
Lemma dominating_in : forall cs A c as_, dominating_assumps cs = Some A -> In c cs -> pe_enforce_ub (co_enc c) (co_cost c) = Some as_ -> incl as_ A.
Proof.
  intros cs. induction cs as [|x cs IH]; intros A c as_ E Hc Ec; [destruct Hc|]. cbn [dominating_assumps] in E.
  destruct (pe_enforce_ub (co_enc x) (co_cost x)) as [a1|] eqn:Ee; [|discriminate]. destruct (dominating_assumps cs) as [r|] eqn:Er; [|discriminate]. injection E as <-.
  destruct Hc as [<-|Hc]; [assert (a1 = as_) as -> by congruence; apply incl_appl, incl_refl|]. apply incl_appr. exact (IH r c as_ eq_refl Hc Ec).
Qed.
Lemma dominating_some : forall cs A c, dominating_assumps cs = Some A -> In c cs -> exists as_, pe_enforce_ub (co_enc c) (co_cost c) = Some as_.
Proof.
  intros cs. induction cs as [|x cs IH]; intros A c E Hc; [destruct Hc|]. cbn [dominating_assumps] in E.
  destruct (pe_enforce_ub (co_enc x) (co_cost x)) as [a1|] eqn:Ee; [|discriminate]. destruct (dominating_assumps cs) as [r|] eqn:Er; [|discriminate].
  destruct Hc as [<-|Hc]; [exists a1; exact Ee|exact (IH r c eq_refl Hc)].
Qed.
(** the assumptions force the next solution to weakly dominate the candidate *)
Lemma improve_le : forall r b w A, run_ok k0 n sol r -> enc_works k0 cls r -> dominating_assumps (for_sol (r_cs r) b) = Some A ->
  solver_sat n cls r w -> lits_true (asg_of w) A -> le_all (r_cs r) (truncate w n) b.
Proof.
  intros r b w A R W E (Ht & Hs & Hm) T c Hc. rewrite (trunc_cost r w c R Hc).
  assert (Hc2 : In (mkCobj (co_enc c) (co_obj c) (co_reform c) (icost (co_obj c) (asg_of b))) (for_sol (r_cs r) b)) by (unfold for_sol; apply in_map_iff; exists c; split; [reflexivity|exact Hc]).
  destruct (dominating_some _ A _ E Hc2) as (as_ & Ea). pose proof (dominating_in _ A _ as_ E Hc2 Ea) as Hi. cbn [co_enc co_cost] in Ea.
  apply (proj1 (W c _ as_ Hc Ea) (asg_of w) Hs Hm). intros l Hl. exact (T l (Hi l Hl)).
Qed.
(** without such a solution the candidate is Pareto-optimal *)
Lemma yield_optimal : forall r b rest A, run_ok k0 n sol r -> enc_works k0 cls r -> map bare (map co_obj (r_cs r)) = map bare (build_objs 0 rs) ->
  r_done r = b :: rest -> sol b -> (forall d, In d rest -> better (r_cs r) b d) ->
  dominating_assumps (for_sol (r_cs r) b) = Some A -> solver_unsat k0 r A -> pareto_optimal cls rs (costs rs (asg_of b)).
Proof.
  intros r b rest A R W Eo Ed Hb Hr E (core & id & C & Hi & Hin & Hsame). split; [exists (asg_of b); split; [exact (proj2 Hb)|reflexivity]|].
  intros a Ha (Hle & Hne). set (b2 := as_sol n a).
  assert (Hb2 : sol b2).
  { split; [apply as_sol_total|]. apply (sat_ext cls n a); [exact (proj1 Hv)| |exact Ha]. intros x Hx. symmetry. apply as_sol_val. exact Hx. }
  assert (Ecost : costs rs a = costs rs (asg_of b2)).
  { unfold costs. apply map_ext_in. intros o Ho. unfold obj_value. f_equal. f_equal. apply wsum_ext. intros [l w] Hl. cbn [fst]. unfold lit_true.
    rewrite <- (as_sol_val n a (lvar l)); [reflexivity|]. exact (proj2 Hv o l w Ho Hl). }
  rewrite Ecost in Hle, Hne. pose proof (proj2 (le_iff (r_cs r) b2 b Eo) Hle) as L.
  assert (Hbet : forall d, In d (r_done r) -> better (r_cs r) b2 d).
  { intros d Hd. rewrite Ed in Hd. destruct (better_dec (r_cs r) b2 d) as [X|X]; [exact X|]. exfalso. destruct Hd as [<-|Hd].
    - apply Hne. apply (ic_eq rs Hok 0). apply vle_antisym; [apply (ic_le rs Hok 0); exact Hle|]. apply (ic_le rs Hok 0). apply (le_iff (r_cs r) b b2 Eo). exact X.
    - apply (better_not_le _ _ _ (Hr d Hd)). exact (le_all_trans _ _ _ _ X L). }
  destruct (run_extends k0 n sol r b2 Htot R Hb2 Hbet) as (x & Hx & Hval).
  pose proof (Hx _ Hin) as HC. cbn [snd] in HC. rewrite (lb_same_holds pv_eqd _ _ Hsame) in HC. apply lb_clause_holds in HC. destruct HC as (l & Hl & T).
  apply in_map_iff in Hl. destruct Hl as (l' & <- & Hl). apply in_map_iff in Hl. destruct Hl as (l & <- & Hl). apply Hi in Hl.
  assert (TA : lits_true (on_solver x) A).
  { apply (dominating_true (lits_true (on_solver x)) (for_sol (r_cs r) b) A); [|intros q []|intros p q Hp Hq y Hy; apply in_app_or in Hy; destruct Hy as [Hy|Hy]; [exact (Hp y Hy)|exact (Hq y Hy)]|exact E].
    intros c as_ Hc Ea. apply for_sol_in in Hc. destruct Hc as (c0 & Hc0 & ->). cbn [co_enc co_cost] in Ea.
    apply (proj2 (W c0 _ as_ Hc0 Ea) x Hx). replace (icost (co_obj c0) (on_solver x)) with (icost (co_obj c0) (asg_of b2)); [exact (L c0 Hc0)|].
    apply wsum_ext. intros [y w] Hy. cbn [fst]. unfold lit_true, on_solver. rewrite (Hval (lvar y)); [reflexivity|]. exact (ro_objs _ _ _ _ R c0 y w Hc0 Hy). }
  specialize (TA l Hl). revert TA T. unfold lit_true, on_solver, ax_true, axiom, lnot. cbn [ax_var ax_neg lvar lneg]. destruct (lneg l), (x (PVs (lvar l))); discriminate.
Qed.

(** ** The invariant is kept *)
Lemma dominated_objs : forall cs cs' D D' d, map co_obj cs' = map co_obj cs -> incl D D' -> dominated_in cs D d -> dominated_in cs' D' d.
Proof. intros cs cs' D D' d E Hi (e & He & L & B). exists e. split; [exact (Hi e He)|]. split; [exact (le_all_objs _ _ _ _ E L)|exact (better_objs _ _ _ _ E B)]. Qed.
Lemma barrier_keeps : forall s r', f_inv k0 n cls rs s -> enc_works k0 cls (f_r s) -> run_step k0 n sol (f_r s) r' ->
  forall w, sat w cls -> models_handed w (r_p r') -> forall d, In d (r_done r') -> exists c, In c (r_cs r') /\ icost (co_obj c) w < icost (co_obj c) (asg_of d).
Proof.
  intros s r' I W S w Hs Hm d Hd. pose proof (step_reg _ _ _ _ _ S) as G. assert (Hm0 : models_handed w (r_p (f_r s))) by (intros c id Hc; exact (Hm c id (G _ Hc))).
  assert (He : enforces w (r_cs (f_r s))) by (intros c v as_ Hc _ Ea T; exact (proj1 (W c v as_ Hc Ea) w Hs Hm0 T)).
  assert (X : exists c, In c (r_cs (f_r s)) /\ icost (co_obj c) w < icost (co_obj c) (asg_of d)).
  { destruct (step_done _ _ _ _ _ w S Hm He d Hd) as [H|H]; [exact (fi_barrier _ _ _ _ _ I w Hs Hm0 d H)|exact H]. }
  destruct X as (c & Hc & L). apply (in_map co_obj) in Hc. rewrite <- (run_step_objs _ _ _ _ _ S) in Hc. apply in_map_iff in Hc. destruct Hc as (c' & Ec & Hc'). exists c'. split; [exact Hc'|]. rewrite Ec. exact L.
Qed.
Lemma f_step_inv : forall s s', f_inv k0 n cls rs s -> enc_works k0 cls (f_r s) -> pm_step k0 n cls s s' -> f_inv k0 n cls rs s'.
Proof.
  intros s s' I W S. destruct S as [at_ r r' F S Ed|r F w Hw|r r' F w S Ed|r F b w A EA Hw HT|r F b A c EA HU Ec].
  - pose proof (run_step_objs _ _ _ _ _ S) as Eo. pose proof (barrier_keeps _ _ I W S) as HB. destruct I as [I1 I2 I3 I4 I5 I6 I7 I8 I9 I10]. cbn [f_r f_at f_front] in *. constructor; cbn [f_r f_at f_front].
    + exact (run_step_ok _ _ _ _ _ Htot I1 S).
    + rewrite Eo. exact I2.
    + rewrite Eo. exact I3.
    + rewrite Ed. exact I4.
    + exact HB.
    + rewrite Ed. intros d Hd. destruct (I6 d Hd) as [X|[X|X]]; [left; exact X|right; left; exact (dominated_objs _ _ _ _ d Eo (incl_refl _) X)|right; right].
      destruct at_ as [|w|b]; [exact X|exact (le_all_objs _ _ _ _ Eo X)|exact X].
    + destruct at_ as [|w|b]; [exact Logic.I| |].
      * destruct I7 as (X1 & X2). split; [exact X1|]. rewrite Ed. intros d Hd. exact (better_objs _ _ _ _ Eo (X2 d Hd)).
      * destruct I7 as (rest & X1 & X2 & X3). exists rest. split; [rewrite Ed; exact X1|]. split; [|exact X3]. intros d Hd. exact (better_objs _ _ _ _ Eo (X2 d Hd)).
    + rewrite Ed. exact I8.
    + exact I9.
    + rewrite Ed. exact (fop_objs _ _ _ Eo I10).
  - pose proof (found_better _ w I Hw) as HB. pose proof (trunc_sol _ _ Hw) as Hs. destruct I as [I1 I2 I3 I4 I5 I6 I7 I8 I9 I10]. cbn [f_r f_at f_front] in *. constructor; cbn [f_r f_at f_front]; try assumption.
    + intros d Hd. destruct (I6 d Hd) as [X|[X|[]]]; [left; exact X|right; left; exact X].
    + split; assumption.
  - pose proof (run_step_objs _ _ _ _ _ S) as Eo. pose proof (barrier_keeps _ _ I W S) as HB. pose proof (run_step_better _ _ _ _ _ _ S Ed) as (Hsol & Hbet).
    destruct I as [I1 I2 I3 I4 I5 I6 I7 I8 I9 I10]. cbn [f_r f_at f_front] in *. constructor; cbn [f_r f_at f_front].
    + exact (run_step_ok _ _ _ _ _ Htot I1 S).
    + rewrite Eo. exact I2.
    + rewrite Eo. exact I3.
    + rewrite Ed. intros d [<-|Hd]; [exact Hsol|exact (I4 d Hd)].
    + exact HB.
    + rewrite Ed. intros d [<-|Hd]; [right; right; reflexivity|]. destruct (I6 d Hd) as [X|[X|X]]; [left; exact X|right; left; exact (dominated_objs _ _ _ _ d Eo (incl_tl _ (incl_refl _)) X)|right; left].
      exists (truncate w n). split; [left; reflexivity|]. split; [exact (le_all_objs _ _ _ _ Eo X)|exact (better_objs _ _ _ _ Eo (Hbet d Hd))].
    + exists (r_done r). split; [exact Ed|]. split; [intros d Hd; exact (better_objs _ _ _ _ Eo (Hbet d Hd))|]. intros X. apply in_flat_map in X. destruct X as (p & Hp & Hq).
      destruct (I8 p Hp) as (b & -> & Hb & _). destruct Hq as [Eq|[]]. cbn [nd_sols] in Eq. rewrite Eq in Hb. exact (better_not_le _ _ _ (Hbet _ Hb) (fun c _ => Nat.le_refl _)).
    + rewrite Ed. intros p Hp. destruct (I8 p Hp) as (b & E1 & E2 & E3). exists b. split; [exact E1|]. split; [right; exact E2|exact E3].
    + exact I9.
    + rewrite Ed. constructor; [|exact (fop_objs _ _ _ Eo I10)]. apply Forall_forall. intros d Hd. exact (better_objs _ _ _ _ Eo (Hbet d Hd)).
  - pose proof (found_better _ w I Hw) as HB. pose proof (trunc_sol _ _ Hw) as Hs. destruct I as [I1 I2 I3 I4 I5 I6 I7 I8 I9 I10]. cbn [f_r f_at f_front] in *. constructor; cbn [f_r f_at f_front]; try assumption.
    + intros d Hd. destruct (I6 d Hd) as [X|[X| ->]]; [left; exact X|right; left; exact X|right; right]. exact (improve_le r b w A I1 W EA Hw HT).
    + split; assumption.
  - destruct I as [I1 I2 I3 I4 I5 I6 I7 I8 I9 I10]. cbn [f_r f_at f_front] in *. destruct I7 as (rest & X1 & X2 & X3).
    assert (Hb : sol b) by (apply I4; rewrite X1; left; reflexivity).
    assert (c = costs rs (asg_of b)) as ->.
    { rewrite I3 in Ec. replace (map co_cost (for_sol (r_cs r) b)) with (ic (build_objs 0 rs) (asg_of b)) in Ec.
      - rewrite (ext_all rs Hok 0 (asg_of b) Hfit) in Ec. congruence.
      - unfold for_sol. rewrite map_map. cbn [co_cost]. symmetry. apply bare_cost. exact I2. }
    constructor; cbn [f_r f_at f_front]; try assumption.
    + intros d Hd. destruct (I6 d Hd) as [X|[X| ->]]; [left; unfold sols_of; rewrite flat_map_app; apply in_or_app; left; exact X|right; left; exact X|left]. unfold sols_of. rewrite flat_map_app. apply in_or_app. right. left. reflexivity.
    + exact Logic.I.
    + intros p Hp. apply in_app_or in Hp. destruct Hp as [Hp|[<-|[]]]; [exact (I8 p Hp)|]. exists b. split; [reflexivity|]. split; [rewrite X1; left; reflexivity|]. cbn [nd_costs].
      exact (yield_optimal r b rest A I1 W I2 X1 Hb X2 EA HU).
    + rewrite map_app. cbn [map nd_costs]. apply NoDup_app_intro; [exact I9|repeat constructor; intros []|]. intros x Hx [<-|[]]. apply in_map_iff in Hx. destruct Hx as (p & Ep & Hp).
      destruct (I8 p Hp) as (d & -> & Hd & _). cbn [nd_costs] in Ep. rewrite X1 in Hd. destruct Hd as [<-|Hd].
      * apply X3. unfold sols_of. apply in_flat_map. eexists. split; [exact Hp|left; reflexivity].
      * pose proof (X2 d Hd) as B. apply (better_iff (r_cs r) b d I2) in B. apply B. rewrite Ep. apply (ic_le rs Hok 0). apply vle_refl.
Qed.
Lemma f_runs_inv : forall s s', f_inv k0 n cls rs s -> pm_runs k0 n cls s s' -> f_inv k0 n cls rs s' /\ enc_works k0 cls (f_r s').
Proof.
  intros s s' I H. induction H as [s W|s1 s2 s3 H IH S W]; [split; assumption|]. destruct (IH I) as (I2 & W2). split; [exact (f_step_inv _ _ I2 W2 S)|exact W].
Qed.
Lemma f_start : forall cs r0, map co_obj cs = build_objs 0 rs -> (forall c b, In c cs -> pe_extend (co_enc c) b = []) ->
  k0 = init_chk cls (build_objs 0 rs) -> enc_fine (k_all k0) cs -> boosts k0 n sol (start_run n cls cs) r0 -> f_inv k0 n cls rs (mkFs AtOuter r0 []).
Proof.
  intros cs r0 Eo Ex -> Hf B. pose proof (boosted_ok n cls rs cs r0 Hv Eo Ex Hf B) as I. pose proof (bi_done _ _ _ _ _ I) as D. constructor; cbn [f_r f_at f_front]; rewrite ?D.
  - exact (bi_ok _ _ _ _ _ I).
  - exact (bi_objs _ _ _ _ _ I).
  - intros v. rewrite ext_all_view, (boosts_view _ _ _ _ _ B). cbn [start_run r_cs]. rewrite <- ext_all_view, Eo. reflexivity.
  - intros d [].
  - intros w _ _ d [].
  - intros d [].
  - exact Logic.I.
  - intros p [].
  - constructor.
  - constructor.
Qed.
End Front.
