(** * A solution of the clauses handed to the solver is better than every blocked candidate *)
From Coq Require Import List Arith ZArith Lia Bool.
From Verif Require Import Spec Base BaseLemmas Sem Ext MTypes MPMinimal MPrepro VeriPB MProofs ProofRun ProofCut ProofCert TracerThm ReformSpec MProofAlg ReifSpec BlockSpec RunSpec RunThm.
Import ListNotations.
Local Open Scope nat_scope.

Lemma firstn_nth_error : forall {A} (l : list A) n x, x < n -> nth_error (firstn n l) x = nth_error l x.
Proof.
  intros A l. induction l as [|y l IH]; intros n x H; [rewrite firstn_nil; reflexivity|]. destruct n as [|n]; [lia|]. destruct x as [|x]; [reflexivity|]. cbn [firstn nth_error]. apply IH. lia.
Qed.
Definition reg_grows (p p' : pst) : Prop := incl (ps_reg p) (ps_reg p').
Lemma reg_grows_trans : forall p q r, reg_grows p q -> reg_grows q r -> reg_grows p r.
Proof. intros p q r H1 H2 x Hx. exact (H2 x (H1 x Hx)). Qed.
Lemma reg_eq : forall p p', ps_reg p' = ps_reg p -> reg_grows p p'.
Proof. intros p p' E x Hx. rewrite E. exact Hx. Qed.
Lemma bound_reg : forall v o p x p', get_obj_bound v o p = (x, p') -> ps_reg p' = ps_reg p.
Proof. intros v o p x p' H. unfold get_obj_bound in H. destruct (bound_get (ps_bounds p) (obj_idx o, v)); [injection H as _ <-; reflexivity|]. unfold new_proof_var, push_value, wr_id in H. injection H as _ <-. reflexivity. Qed.
Lemma reif_loop_reg : forall e value fi reif id as_ val p p', reif_loop e value fi reif id val as_ p = Some p' ->
  reg_grows p p' /\ forall a, In a as_ -> exists i, In ([lnot reif; a], i) (ps_reg p').
Proof.
  intros e value fi reif id as_. induction as_ as [|a r IH]; intros val p p' H; cbn [reif_loop] in H.
  - injection H as <-. split; [intros x Hx; exact Hx|intros a []].
  - destruct (pe_details e (pe_next_higher e val)) as [[olit [i0 [oi|]]]|]; try discriminate. destruct (lit_eqb (lnot olit) a); [|discriminate].
    cbn zeta in H. unfold wr_id in H. apply IH in H. destruct H as (G & A). cbn [wr add_cert ps_reg] in G. split.
    + intros x Hx. apply G. cbn [wr add_cert ps_reg]. apply in_or_app. left. exact Hx.
    + intros b [<-|Hb]; [|exact (A b Hb)]. eexists. apply G. cbn [wr add_cert ps_reg]. apply in_or_app. right. left. reflexivity.
Qed.
Lemma reif_loop_buf_reg : forall e d1 reif id as_ val p p', reif_loop_buf e d1 reif id val as_ p = Some p' ->
  reg_grows p p' /\ forall a, In a as_ -> exists i, In ([lnot reif; a], i) (ps_reg p').
Proof.
  intros e d1 reif id as_. induction as_ as [|a r IH]; intros val p p' H; cbn [reif_loop_buf] in H.
  - injection H as <-. split; [intros x Hx; exact Hx|intros a []].
  - destruct (pe_details e val) as [[olit [i0 oi]]|]; [|discriminate]. destruct (lvar a <? lvar olit).
    + unfold wr_id in H. apply IH in H. destruct H as (G & A). split.
      * intros x Hx. apply G. cbn [add_cert ps_reg]. apply in_or_app. left. exact Hx.
      * intros b [<-|Hb]; [|exact (A b Hb)]. eexists. apply G. cbn [add_cert ps_reg]. apply in_or_app. right. left. reflexivity.
    + destruct oi as [oi|]; [|discriminate]. destruct (lit_eqb (lnot olit) a); [|discriminate]. unfold wr_id in H. apply IH in H. destruct H as (G & A). split.
      * intros x Hx. apply G. cbn [wr add_cert ps_reg]. apply in_or_app. left. exact Hx.
      * intros b [<-|Hb]; [|exact (A b Hb)]. eexists. apply G. cbn [wr add_cert ps_reg]. apply in_or_app. right. left. reflexivity.
Qed.
Lemma reif_reg : forall o e value reif as_ p id p', certify_assump_reification o e value reif as_ p = Some (id, p') ->
  reg_grows p p' /\ forall a, In a as_ -> exists i, In ([lnot reif; a], i) (ps_reg p').
Proof.
  intros o e value reif as_ p id p' H. unfold certify_assump_reification in H. destruct (pe_buf_empty e).
  - unfold certify_reif in H. destruct as_ as [|a r]; [discriminate|]. unfold wr_id in H. cbn zeta in H.
    destruct (pe_details e value) as [[fo [[fi|] x]]|]; try discriminate. destruct (lit_eqb (lnot fo) a); [|discriminate].
    match type of H with context [reif_loop _ _ _ _ _ _ _ ?q] => destruct (reif_loop e value fi reif (ps_next p) value r q) as [p1|] eqn:E; [|discriminate] end.
    injection H as _ <-. apply reif_loop_reg in E. destruct E as (G & A). cbn [add_cert push_value ps_reg] in G. split.
    + intros y Hy. apply G. cbn [add_cert push_value ps_reg]. apply in_or_app. left. exact Hy.
    + intros b [<-|Hb]; [|exact (A b Hb)]. eexists. apply G. cbn [add_cert push_value ps_reg]. apply in_or_app. right. left. reflexivity.
  - unfold certify_reif_buf in H. destruct (get_obj_bound value o p) as [[[ideal d1] d2] p0] eqn:Eb. apply bound_reg in Eb. unfold wr_id in H. cbn zeta in H.
    match type of H with context [reif_loop_buf _ _ _ ?i _ _ ?q] => destruct (reif_loop_buf e d1 reif i value as_ q) as [p1|] eqn:E; [|discriminate] end.
    injection H as _ <-. apply reif_loop_buf_reg in E. destruct E as (G & A). cbn [push_value ps_reg] in G. split; [|exact A]. intros y Hy. apply G. cbn [push_value ps_reg]. rewrite Eb. exact Hy.
Qed.
Lemma block_clause_reg : forall bs nv p cl ids nv' p', block_clause bs nv p = Some (cl, ids, nv', p') ->
  reg_grows p p' /\ forall w, models_handed w p' -> clause_true w cl = true ->
    exists b as_, In b bs /\ pe_offset (bo_enc b) < bo_cost b /\ pe_enforce_ub (bo_enc b) (bo_cost b - 1) = Some as_ /\ lits_true w as_.
Proof.
  induction bs as [|b r IH]; intros nv p cl ids nv' p' H; cbn [block_clause] in H.
  - injection H as <- _ _ <-. split; [intros x Hx; exact Hx|]. intros w _ T. discriminate.
  - destruct (Nat.leb_spec (bo_cost b) (pe_offset (bo_enc b))) as [L|L]; cbn [orb] in H.
    + destruct (IH _ _ _ _ _ _ H) as (G & Q). split; [exact G|]. intros w Hw T. destruct (Q w Hw T) as (b' & as_ & A). exists b', as_. split; [right; exact (proj1 A)|exact (proj2 A)].
    + destruct (bo_const b).
      { destruct (IH _ _ _ _ _ _ H) as (G & Q). split; [exact G|]. intros w Hw T. destruct (Q w Hw T) as (b' & as_ & A). exists b', as_. split; [right; exact (proj1 A)|exact (proj2 A)]. }
      destruct (pe_enforce_ub (bo_enc b) (bo_cost b - 1)) as [[|a as_]|] eqn:Ee; try discriminate. destruct as_ as [|a2 as_].
      * destruct (block_clause r nv p) as [[[[c i] n2] q]|] eqn:Er; [|discriminate]. injection H as <- <- <- <-. destruct (IH _ _ _ _ _ _ Er) as (G & Q). split; [exact G|].
        intros w Hw T. unfold clause_true in T. cbn [existsb] in T. apply orb_prop in T. destruct T as [T|T].
        -- exists b, [a]. split; [left; reflexivity|]. split; [exact L|]. split; [exact Ee|]. intros x [<-|[]]. exact T.
        -- destruct (Q w Hw T) as (b' & as_ & A). exists b', as_. split; [right; exact (proj1 A)|exact (proj2 A)].
      * destruct (certify_assump_reification (bo_obj b) (bo_enc b) (bo_cost b) (mkLit nv false) (a :: a2 :: as_) p) as [[i p1]|] eqn:Ec; [|discriminate].
        destruct (block_clause r (S nv) p1) as [[[[c i2] n2] q]|] eqn:Er; [|discriminate]. injection H as <- <- <- <-. destruct (IH _ _ _ _ _ _ Er) as (G & Q).
        apply reif_reg in Ec. destruct Ec as (G1 & A). split; [exact (reg_grows_trans _ _ _ G1 G)|]. intros w Hw T. unfold clause_true in T. cbn [existsb] in T. apply orb_prop in T. destruct T as [T|T].
        -- exists b, (a :: a2 :: as_). split; [left; reflexivity|]. split; [exact L|]. split; [exact Ee|]. intros x Hx. destruct (A x Hx) as (j & Hj). apply G in Hj. specialize (Hw _ _ Hj).
           unfold clause_true in Hw. cbn [existsb] in Hw. rewrite orb_false_r in Hw. apply orb_prop in Hw. destruct Hw as [Hw|Hw]; [|exact Hw].
           exfalso. unfold lit_true in T, Hw. cbn [lneg lvar lnot negb] in T, Hw. destruct (w nv); discriminate.
        -- destruct (Q w Hw T) as (b' & as' & B). exists b', as'. split; [right; exact (proj1 B)|exact (proj2 B)].
Qed.
Lemma cut_data_reg : forall cs p ds p', cut_data cs p = Some (ds, p') -> ps_reg p' = ps_reg p.
Proof.
  induction cs as [|c r IH]; intros p ds p' H; cbn [cut_data] in H; [injection H as _ <-; reflexivity|].
  destruct (cut_one (co_enc c) (co_obj c) (co_reform c) (co_cost c) p) as [[d q]|] eqn:E; [|discriminate]. destruct (cut_data r q) as [[ds' q']|] eqn:E'; [|discriminate].
  injection H as _ <-. rewrite (IH _ _ _ E'). unfold cut_one in E. destruct (co_cost c <=? obj_lb (co_obj c)); [destruct (_ || _); [injection E as _ <-; reflexivity|discriminate]|].
  assert (X : (if pe_nout (co_enc c) =? 1 then match pe_enforce_ub (co_enc c) (pe_offset (co_enc c)) with Some (l :: _) => Some ((Some (axiom l), None), p) | _ => None end
     else if pe_buf_empty (co_enc c) then match pe_details (co_enc c) (co_cost c) with Some (olit, (_, Some d)) => Some ((Some (ax_not (axiom olit)), Some d), p) | _ => None end
     else let '(l, _, d, p) := get_obj_bound (co_cost c) (co_obj c) p in Some ((Some (ax_not l), Some d), p)) = Some (d, q) -> ps_reg q = ps_reg p).
  { clear E. intros E. destruct (pe_nout (co_enc c) =? 1); [destruct (pe_enforce_ub (co_enc c) (pe_offset (co_enc c))) as [[|l ls]|]; [discriminate|injection E as _ <-; reflexivity|discriminate]|].
    destruct (pe_buf_empty (co_enc c)); [destruct (pe_details (co_enc c) (co_cost c)) as [[ol [i [dd|]]]|]; [injection E as _ <-; reflexivity|discriminate|discriminate]|].
    destruct (get_obj_bound (co_cost c) (co_obj c) p) as [[[l d1] d2] p0] eqn:Eb. injection E as _ <-. exact (bound_reg _ _ _ _ _ Eb). }
  destruct (obj_iter (co_obj c)) as [|[l w] [|y ys]]; [exact (X E)|injection E as _ <-; reflexivity|exact (X E)].
Qed.
Lemma cut_reg : forall cs w n p id p', certify_pmin_cut cs w n p = Some (id, p') -> ps_reg p' = ps_reg p.
Proof.
  intros cs w n p id p' H. unfold certify_pmin_cut in H. destruct (cut_data cs p) as [[ds q]|] eqn:E; [|discriminate]. destruct (fix_witness _ _ _ _); [|discriminate].
  unfold wr_id, wr in H. injection H as _ <-. cbn [ps_reg]. exact (cut_data_reg _ _ _ _ E).
Qed.
Lemma block_reg : forall bs cs w n nv p cl nv' p', block_candidate bs cs w n nv p = Some (cl, nv', p') ->
  reg_grows p p' /\ forall a, models_handed a p' ->
    exists b as_, In b bs /\ pe_offset (bo_enc b) < bo_cost b /\ pe_enforce_ub (bo_enc b) (bo_cost b - 1) = Some as_ /\ lits_true a as_.
Proof.
  intros bs cs w n nv p cl nv' p' H. unfold block_candidate in H. destruct (block_clause bs nv p) as [[[[c i] n2] q]|] eqn:E; [|discriminate].
  destruct (certify_pmin_cut cs w n q) as [[ci q2]|] eqn:Ec; [|discriminate]. unfold wr_id in H. injection H as <- <- <-. apply cut_reg in Ec. apply block_clause_reg in E. destruct E as (G & Q).
  assert (G2 : incl (ps_reg q) (ps_reg q2 ++ [(c, ps_next q2)])) by (intros x Hx; apply in_or_app; left; rewrite Ec; exact Hx).
  split; [intros x Hx; cbn [add_cert ps_reg]; exact (G2 x (G x Hx))|]. intros a Ha. apply (Q a).
  - intros d id Hd. apply (Ha d id). cbn [add_cert ps_reg]. exact (G2 _ Hd).
  - apply (Ha c (ps_next q2)). cbn [add_cert ps_reg]. apply in_or_app. right. left. reflexivity.
Qed.
Lemma step_reg : forall k0 n (sol : assignment -> Prop) r r', run_step k0 n sol r r' -> reg_grows (r_p r) (r_p r').
Proof.
  intros k0 n sol r r' S. destruct S as [cs nv p L done s del H1 H2 H3|cs nv p L done ids H1|cs nv p L done c id C H1 H2|cs cs' nv p L done ts v H1 H2 H3 H4 H5 p1 p2 H6|cs cs' nv p L done H1 H2 H3|cs nv p L done b w xs cl nv' p' H1 H2 H3 H4 H5 H6 H7 H8]; cbn [r_p].
  - apply reg_eq. reflexivity.
  - apply reg_eq. reflexivity.
  - intros x Hx. cbn [add_cert ps_reg]. apply in_or_app. left. exact Hx.
  - apply reg_eq. reflexivity.
  - intros x Hx. exact Hx.
  - exact (proj1 (block_reg _ _ _ _ _ _ _ _ _ H8)).
Qed.
Lemma step_done : forall k0 n (sol : assignment -> Prop) r r' w, run_step k0 n sol r r' -> models_handed w (r_p r') -> enforces w (r_cs r) ->
  forall d, In d (r_done r') -> In d (r_done r) \/ exists c, In c (r_cs r) /\ icost (co_obj c) w < icost (co_obj c) (asg_of d).
Proof.
  intros k0 n sol r r' w S. destruct S as [cs nv p L done s del H1 H2 H3|cs nv p L done ids H1|cs nv p L done c id C H1 H2|cs cs' nv p L done ts v H1 H2 H3 H4 H5 p1 p2 H6|cs cs' nv p L done H1 H2 H3|cs nv p L done b x xs cl nv' p' H1 H2 H3 H4 H5 H6 H7 H8]; cbn [r_p r_cs r_done]; intros Hm He d Hd; try (left; exact Hd).
  destruct Hd as [<-|Hd]; [|left; exact Hd]. right. destruct (proj2 (block_reg _ _ _ _ _ _ _ _ _ H8) w Hm) as (bo & as_ & Hb & L1 & Ee & T).
  apply in_map_iff in Hb. destruct Hb as (y & <- & Hy). assert (Hc : In (fst y) (for_sol cs b)) by (rewrite <- H5; apply in_map; exact Hy).
  apply for_sol_in in Hc. destruct Hc as (c0 & Hc0 & Ec). unfold as_bobj in L1, Ee. cbn [bo_enc bo_cost] in L1, Ee. rewrite Ec in L1, Ee. cbn [co_enc co_cost] in L1, Ee.
  exists c0. split; [exact Hc0|]. assert (X : pe_offset (co_enc c0) <= icost (co_obj c0) (asg_of b) - 1) by lia. specialize (He c0 _ as_ Hc0 X Ee T). lia.
Qed.
Lemma runs_with_runs : forall k0 n (sol : assignment -> Prop) Q r r', runs_with k0 n sol Q r r' -> runs k0 n sol r r' /\ Q (r_cs r').
Proof. intros k0 n sol Q r r' H. induction H as [r Hr|r1 r2 r3 H IH S Hq]; split; try assumption; [apply runs_refl|]. exact (runs_step _ _ _ _ _ _ (proj1 IH) S). Qed.
Lemma runs_new : forall k0 n (sol : assignment -> Prop) r0 r w, runs_with k0 n sol (enforces w) r0 r -> r_done r0 = [] -> models_handed w (r_p r) ->
  forall d, In d (r_done r) -> exists o, In o (map co_obj (r_cs r)) /\ icost o w < icost o (asg_of d).
Proof.
  intros k0 n sol r0 r w H. induction H as [r Hr|r1 r2 r3 H IH S Hq]; intros E0 Hm d Hd; [rewrite E0 in Hd; destruct Hd|].
  assert (Hm2 : models_handed w (r_p r2)) by (intros c id Hc; apply (Hm c id); exact (step_reg _ _ _ _ _ S _ Hc)).
  assert (S1 : runs k0 n sol r2 r3) by (apply (runs_step _ _ _ _ r2); [apply runs_refl|exact S]).
  destruct (runs_done _ _ _ _ _ S1) as (Eo & _). rewrite Eo.
  destruct (step_done _ _ _ _ _ w S Hm (proj2 (runs_with_runs _ _ _ _ _ _ H)) d Hd) as [Hd2|(c & Hc & L)]; [|exists (co_obj c); split; [apply in_map; exact Hc|exact L]].
  exact (IH E0 Hm2 d Hd2).
Qed.
