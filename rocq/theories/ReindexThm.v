(** * Reindexing of variables *)
From Coq Require Import List Bool Arith Lia ZArith.
From Verif Require Import Base BaseLemmas Spec MTypes MKernel EncSpec Sem Init ApiSpec MPrepro PreSpec Ext Blk ApiTop PreproThm.
Import ListNotations.

Record ri_inv (r : reindexer) : Prop := mkRI {
  rv_len : length (ri_out r) = ri_next r;
  rv_get : forall v x, ri_get (ri_in r) v = Some x <-> nth_error (ri_out r) x = Some v }.
Definition ri_le (r r' : reindexer) : Prop :=
  forall v x, ri_get (ri_in r) v = Some x -> ri_get (ri_in r') v = Some x.
Definition ri_dom (r : reindexer) (v : nat) : Prop := ri_get (ri_in r) v <> None.
(** The renaming a reindexer stands for *)
Definition ri_map (r : reindexer) (v : nat) : nat :=
  match ri_get (ri_in r) v with Some x => x | None => 0 end.

Lemma ri_inv_new m : ri_inv (ri_new m).
Proof.
  constructor; [reflexivity|]. intros v x; cbn. destruct x; split; discriminate.
Qed.
Lemma ri_le_refl r : ri_le r r. Proof. intros v x H; exact H. Qed.
Lemma ri_le_trans a b c : ri_le a b -> ri_le b c -> ri_le a c.
Proof. intros H1 H2 v x H. apply H2, H1, H. Qed.
Lemma ri_map_le r r' v : ri_le r r' -> ri_dom r v -> ri_map r' v = ri_map r v.
Proof.
  intros H Hd. unfold ri_map, ri_dom in *. destruct (ri_get (ri_in r) v) as [x|] eqn:e; [|congruence].
  now rewrite (H _ _ e).
Qed.
Lemma ri_dom_le r r' v : ri_le r r' -> ri_dom r v -> ri_dom r' v.
Proof.
  unfold ri_dom. intros H Hd. destruct (ri_get (ri_in r) v) as [x|] eqn:e; [|congruence].
  rewrite (H _ _ e). discriminate.
Qed.

Lemma ri_reindex_ok r v x r' : ri_inv r -> ri_reindex r v = (x, r') ->
  ri_inv r' /\ ri_le r r' /\ ri_old_max r' = ri_old_max r /\
  x = ri_map r' v /\ (forall u, ri_dom r' u <-> ri_dom r u \/ u = v).
Proof.
  intros Hi H. unfold ri_reindex in H. destruct (ri_get (ri_in r) v) as [y|] eqn:e.
  - injection H as <- <-. split; [assumption|]. split; [apply ri_le_refl|]. split; [reflexivity|].
    split; [unfold ri_map; now rewrite e|]. intros u. split; [now left|]. intros [H| ->]; [assumption|].
    unfold ri_dom. congruence.
  - injection H as <- <-.
    assert (Hself : forall u, ri_get ((v, ri_next r) :: ri_in r) u =
                              if Nat.eqb v u then Some (ri_next r) else ri_get (ri_in r) u) by reflexivity.
    split; [|split; [|split; [reflexivity|split]]].
    + constructor; cbn [ri_out ri_next ri_in].
      * rewrite app_length, (rv_len r Hi). cbn. lia.
      * intros u x. rewrite Hself. destruct (Nat.eqb_spec v u) as [->|Hne].
        -- split.
           ++ intros H; injection H as <-. rewrite nth_error_app2 by (rewrite (rv_len r Hi); lia).
              rewrite (rv_len r Hi), Nat.sub_diag. reflexivity.
           ++ intros H. apply nth_error_snoc in H. destruct H as [H|[-> _]].
              ** apply (rv_get r Hi) in H. congruence.
              ** now rewrite (rv_len r Hi).
        -- rewrite (rv_get r Hi). split.
           ++ intros H. rewrite nth_error_app1; [assumption|]. exact (nth_lt _ _ _ H).
           ++ intros H. apply nth_error_snoc in H. destruct H as [H|[_ H]]; [assumption|congruence].
    + intros u x Hu. cbn [ri_in]. rewrite Hself. destruct (Nat.eqb_spec v u) as [->|Hne]; [congruence|assumption].
    + unfold ri_map. cbn [ri_in]. rewrite Hself, Nat.eqb_refl. reflexivity.
    + intros u. unfold ri_dom. cbn [ri_in]. rewrite Hself. destruct (Nat.eqb_spec v u) as [->|Hne].
      * split; [now right|discriminate].
      * split; [now left|]. intros [H|H]; [assumption|congruence].
Qed.
Lemma ri_reindex_lit_ok r l l' r' : ri_inv r -> ri_reindex_lit r l = (l', r') ->
  ri_inv r' /\ ri_le r r' /\ ri_old_max r' = ri_old_max r /\
  l' = rename_lit (ri_map r') l /\ (forall u, ri_dom r' u <-> ri_dom r u \/ u = lvar l).
Proof.
  intros Hi H. unfold ri_reindex_lit in H. destruct (ri_reindex r (lvar l)) as [x r1] eqn:e.
  injection H as <- <-. destruct (ri_reindex_ok _ _ _ _ Hi e) as (H1 & H2 & H3 & H4 & H5).
  repeat (split; [assumption|]). split; [|assumption]. unfold rename_lit. now rewrite H4.
Qed.

Definition rename_w (f : nat -> nat) (lw : lit * nat) : lit * nat := (rename_lit f (fst lw), snd lw).

Lemma rename_lit_le r r' l : ri_le r r' -> ri_dom r (lvar l) ->
  rename_lit (ri_map r') l = rename_lit (ri_map r) l.
Proof. intros H Hd. unfold rename_lit. now rewrite (ri_map_le _ _ _ H Hd). Qed.

Lemma ri_wlits_ok lws : forall r lws' r', ri_inv r -> ri_wlits lws r = (lws', r') ->
  ri_inv r' /\ ri_le r r' /\ ri_old_max r' = ri_old_max r /\
  lws' = map (rename_w (ri_map r')) lws /\
  (forall u, ri_dom r' u <-> ri_dom r u \/ In u (lits_vars (map fst lws))).
Proof.
  induction lws as [|[l w] lws IH]; intros r lws' r' Hi H; cbn [ri_wlits] in H.
  - injection H as <- <-. split; [assumption|]. split; [apply ri_le_refl|]. split; [reflexivity|].
    split; [reflexivity|]. intros u; cbn. tauto.
  - destruct (ri_reindex_lit r l) as [l' r1] eqn:e1. destruct (ri_wlits lws r1) as [rest r2] eqn:e2.
    injection H as <- <-. destruct (ri_reindex_lit_ok _ _ _ _ Hi e1) as (A1 & A2 & A3 & A4 & A5).
    destruct (IH _ _ _ A1 e2) as (B1 & B2 & B3 & B4 & B5). split; [assumption|].
    split; [eapply ri_le_trans; eauto|]. split; [congruence|]. split.
    + cbn [map]. unfold rename_w at 1. cbn [fst snd].
      rewrite (rename_lit_le r1 r2 l B2) by (apply A5; now right). rewrite <- A4, <- B4. reflexivity.
    + intros u. rewrite B5, A5. cbn. intuition.
Qed.
Lemma ri_objs_ok os : forall r ros r', ri_inv r -> ri_objs os r = (ros, r') ->
  ri_inv r' /\ ri_le r r' /\ ri_old_max r' = ri_old_max r /\
  ros = map (fun o => (map (rename_w (ri_map r')) (obj_iter o), obj_offset o)) os /\
  (forall u, ri_dom r' u <-> ri_dom r u \/ exists o, In o os /\ In u (lits_vars (map fst (obj_iter o)))).
Proof.
  induction os as [|o os IH]; intros r ros r' Hi H; cbn [ri_objs] in H.
  - injection H as <- <-. split; [assumption|]. split; [apply ri_le_refl|]. split; [reflexivity|].
    split; [reflexivity|]. intros u. split; [now left|]. intros [H|(o & [] & _)]; assumption.
  - destruct (ri_wlits (obj_iter o) r) as [lws r1] eqn:e1. destruct (ri_objs os r1) as [rest r2] eqn:e2.
    injection H as <- <-. destruct (ri_wlits_ok _ _ _ _ Hi e1) as (A1 & A2 & A3 & A4 & A5).
    destruct (IH _ _ _ A1 e2) as (B1 & B2 & B3 & B4 & B5). split; [assumption|].
    split; [eapply ri_le_trans; eauto|]. split; [congruence|]. split.
    + cbn [map]. rewrite <- B4. f_equal. f_equal. rewrite A4. apply map_ext_in. intros lw Hlw.
      unfold rename_w. f_equal. symmetry. apply rename_lit_le; [assumption|]. apply A5. right.
      apply in_lits_vars. exists (fst lw). split; [now apply in_map|reflexivity].
    + intros u. rewrite B5, A5. split.
      * intros [[H|H]|(o' & H1 & H2)]; [now left|right; exists o; split; [now left|assumption]|].
        right. exists o'. split; [now right|assumption].
      * intros [H|(o' & [<-|H1] & H2)]; [left; now left|left; now right|]. right. eauto.
Qed.
Lemma ri_clause_ok cl : forall r cl' r', ri_inv r -> ri_clause cl r = (cl', r') ->
  ri_inv r' /\ ri_le r r' /\ ri_old_max r' = ri_old_max r /\
  cl' = map (rename_lit (ri_map r')) cl /\
  (forall u, ri_dom r' u <-> ri_dom r u \/ In u (lits_vars cl)).
Proof.
  induction cl as [|l cl IH]; intros r cl' r' Hi H; cbn [ri_clause] in H.
  - injection H as <- <-. split; [assumption|]. split; [apply ri_le_refl|]. split; [reflexivity|].
    split; [reflexivity|]. intros u; cbn. tauto.
  - destruct (ri_reindex_lit r l) as [l' r1] eqn:e1. destruct (ri_clause cl r1) as [rest r2] eqn:e2.
    injection H as <- <-. destruct (ri_reindex_lit_ok _ _ _ _ Hi e1) as (A1 & A2 & A3 & A4 & A5).
    destruct (IH _ _ _ A1 e2) as (B1 & B2 & B3 & B4 & B5). split; [assumption|].
    split; [eapply ri_le_trans; eauto|]. split; [congruence|]. split.
    + cbn [map]. rewrite (rename_lit_le r1 r2 l B2) by (apply A5; now right).
      rewrite <- A4, <- B4. reflexivity.
    + intros u. rewrite B5, A5. cbn. intuition.
Qed.
Lemma ri_clauses_ok cls : forall r cls' r', ri_inv r -> ri_clauses cls r = (cls', r') ->
  ri_inv r' /\ ri_le r r' /\ ri_old_max r' = ri_old_max r /\
  cls' = map (map (rename_lit (ri_map r'))) cls /\
  (forall u, ri_dom r' u <-> ri_dom r u \/ In u (cls_vars cls)).
Proof.
  induction cls as [|c cls IH]; intros r cls' r' Hi H; cbn [ri_clauses] in H.
  - injection H as <- <-. split; [assumption|]. split; [apply ri_le_refl|]. split; [reflexivity|].
    split; [reflexivity|]. intros u; cbn. tauto.
  - destruct (ri_clause c r) as [c' r1] eqn:e1. destruct (ri_clauses cls r1) as [rest r2] eqn:e2.
    injection H as <- <-. destruct (ri_clause_ok _ _ _ _ Hi e1) as (A1 & A2 & A3 & A4 & A5).
    destruct (IH _ _ _ A1 e2) as (B1 & B2 & B3 & B4 & B5). split; [assumption|].
    split; [eapply ri_le_trans; eauto|]. split; [congruence|]. split.
    + cbn [map]. rewrite <- B4, A4. f_equal. apply map_ext_in. intros l Hl. symmetry.
      apply rename_lit_le; [assumption|]. apply A5. right. apply in_lits_vars. eauto.
    + intros u. rewrite B5, A5, cls_vars_cons, in_app_iff. tauto.
Qed.

(** ** The reindexed instance *)

Lemma occurs_objs i v : (exists o, In o (build_objs 0 (in_objs i)) /\ In v (lits_vars (map fst (obj_iter o)))) <->
  exists r, In r (in_objs i) /\ In v (lits_vars (map fst (fst r))).
Proof.
  generalize 0 as k. induction (in_objs i) as [|r rs IH]; intros k; cbn [build_objs].
  - split; intros (? & [] & _).
  - assert (G : In v (lits_vars (map fst (obj_iter (obj_new (fst r) (snd r) k)))) <-> In v (lits_vars (map fst (fst r)))).
    { rewrite !in_lits_vars. split; intros (l & H1 & H2); exists l; split; try assumption; now apply obj_new_lits in H1 || apply obj_new_lits. }
    specialize (IH (S k)). split.
    + intros (o & [<-|H1] & H2); [exists r; split; [now left|tauto]|].
      destruct (proj1 IH (ex_intro _ o (conj H1 H2))) as (r' & ? & ?). exists r'. split; [now right|assumption].
    + intros (r' & [<-|H1] & H2); [eexists; split; [now left|tauto]|].
      destruct (proj2 IH (ex_intro _ r' (conj H1 H2))) as (o & ? & ?). exists o. split; [now right|assumption].
Qed.

(** Shape of the result, whether or not [max_var().unwrap()] panics *)
Lemma reindex_run i : exists ros r1 cls r2,
  ri_objs (build_objs 0 (in_objs i)) (ri_new (vm_max_orig (in_vm i))) = (ros, r1) /\
  ri_clauses (in_cls i) r1 = (cls, r2) /\
  ri_inv r2 /\ ri_old_max r2 = vm_max_orig (in_vm i) /\
  ros = map (fun o => (map (rename_w (ri_map r2)) (obj_iter o), obj_offset o)) (build_objs 0 (in_objs i)) /\
  cls = map (map (rename_lit (ri_map r2))) (in_cls i) /\
  (forall v, ri_dom r2 v <-> occurs i v).
Proof.
  destruct (ri_objs (build_objs 0 (in_objs i)) (ri_new (vm_max_orig (in_vm i)))) as [ros r1] eqn:e1.
  destruct (ri_clauses (in_cls i) r1) as [cls r2] eqn:e2.
  destruct (ri_objs_ok _ _ _ _ (ri_inv_new _) e1) as (A1 & A2 & A3 & A4 & A5).
  destruct (ri_clauses_ok _ _ _ _ A1 e2) as (B1 & B2 & B3 & B4 & B5).
  exists ros, r1, cls, r2. split; [reflexivity|]. split; [exact e2|]. split; [assumption|].
  split; [rewrite B3, A3; reflexivity|]. split.
  - rewrite A4. apply map_ext_in. intros o Ho. f_equal. apply map_ext_in. intros lw Hlw.
    unfold rename_w. f_equal. symmetry. apply rename_lit_le; [assumption|]. apply A5. right. exists o.
    split; [assumption|]. apply in_lits_vars. exists (fst lw). split; [now apply in_map|reflexivity].
  - split; [assumption|]. intros v. rewrite B5, A5, occurs_objs. unfold occurs.
    split; [|tauto]. intros [[H|H]|H]; try tauto. unfold ri_dom in H. cbn in H. congruence.
Qed.

Record reindexed (i : inst) (r : reindexer) (j : inst) : Prop := mkReindexed {
  rx_inv : ri_inv r;
  rx_old : ri_old_max r = vm_max_orig (in_vm i);
  rx_objs : in_objs j = map (fun o => (map (rename_w (ri_map r)) (obj_iter o), obj_offset o)) (build_objs 0 (in_objs i));
  rx_cls : in_cls j = map (map (rename_lit (ri_map r))) (in_cls i);
  rx_dom : forall v, ri_dom r v <-> occurs i v;
  rx_vm : in_vm j = mkVm (ri_next r) (ri_next r - 1) (ri_next r - 1);
  rx_pos : 0 < ri_next r }.

Lemma reindexing_ok i r j : reindexing i = Some (r, j) -> reindexed i r j.
Proof.
  intros H. unfold reindexing in H.
  destruct (reindex_run i) as (ros & r1 & cls & r2 & e1 & e2 & H1 & H2 & H3 & H4 & H5).
  rewrite e1, e2 in H. unfold ri_max_var in H. destruct (ri_next r2) as [|m] eqn:en; [discriminate|].
  unfold vm_new in H. rewrite Nat.leb_refl in H. injection H as <- <-. constructor; cbn [in_objs in_cls in_vm]; try assumption.
  - rewrite en. cbn. now rewrite Nat.sub_0_r.
  - lia.
Qed.
(** It panics exactly if no variable occurs in the instance. *)
Lemma reindexing_panic i : reindexing i = None <-> forall v, ~ occurs i v.
Proof.
  unfold reindexing. destruct (reindex_run i) as (ros & r1 & cls & r2 & e1 & e2 & H1 & H2 & H3 & H4 & H5).
  rewrite e1, e2. unfold ri_max_var. destruct (ri_next r2) as [|m] eqn:en.
  - split; [|reflexivity]. intros _ v Hv. apply H5 in Hv. unfold ri_dom in Hv.
    destruct (ri_get (ri_in r2) v) as [x|] eqn:e; [|congruence].
    apply (rv_get r2 H1) in e. apply nth_lt in e. rewrite (rv_len r2 H1) in e. lia.
  - unfold vm_new. rewrite Nat.leb_refl. split; [discriminate|]. intros H.
    destruct (nth_error (ri_out r2) 0) as [v|] eqn:e.
    + exfalso. apply (H v). apply H5. unfold ri_dom. apply (rv_get r2 H1) in e. congruence.
    + exfalso. apply nth_error_None in e. rewrite (rv_len r2 H1), en in e. lia.
Qed.

Section Reindexed.
  Variables (i j : inst) (r : reindexer).
  Hypothesis Hr : reindexing i = Some (r, j).
  Let X : reindexed i r j := reindexing_ok i r j Hr.
  Let f := ri_map r.

  Lemma ri_dom_out v : occurs i v -> nth_error (ri_out r) (f v) = Some v.
  Proof.
    intros H. apply (rx_dom _ _ _ X) in H. unfold ri_dom in H. unfold f, ri_map.
    destruct (ri_get (ri_in r) v) as [x|] eqn:e; [|congruence]. now apply (rv_get r (rx_inv _ _ _ X)).
  Qed.
  Lemma ri_out_dom x v : nth_error (ri_out r) x = Some v -> occurs i v /\ f v = x.
  Proof.
    intros H. apply (rv_get r (rx_inv _ _ _ X)) in H. split.
    - apply (rx_dom _ _ _ X). unfold ri_dom. congruence.
    - unfold f, ri_map. now rewrite H.
  Qed.
  Lemma reindex_inj u v : occurs i u -> occurs i v -> f u = f v -> u = v.
  Proof.
    intros Hu Hv He. apply ri_dom_out in Hu, Hv. rewrite He in Hu. congruence.
  Qed.
  Lemma reindex_onto x : x <= vm_max_enc (in_vm j) <-> exists v, occurs i v /\ f v = x.
  Proof.
    rewrite (rx_vm _ _ _ X). cbn [vm_max_enc]. pose proof (rx_pos _ _ _ X) as Hp.
    pose proof (rv_len r (rx_inv _ _ _ X)) as Hl. split.
    - intros Hx. destruct (nth_error (ri_out r) x) as [v|] eqn:e.
      + exists v. now apply ri_out_dom.
      + apply nth_error_None in e. lia.
    - intros (v & Hv & <-). apply ri_dom_out in Hv. apply nth_lt in Hv. lia.
  Qed.

  Lemma lit_true_rename b l : lit_true b (rename_lit f l) = lit_true (fun v => b (f v)) l.
  Proof. reflexivity. Qed.
  Lemma clause_true_rename b c : clause_true b (map (rename_lit f) c) = clause_true (fun v => b (f v)) c.
  Proof. unfold clause_true. induction c as [|l c IH]; [reflexivity|]. cbn [map existsb]. now rewrite IH. Qed.
  Lemma wsum_rename b ls : wsum b (map (rename_w f) ls) = wsum (fun v => b (f v)) ls.
  Proof. induction ls as [|[l w] ls IH]; [reflexivity|]. cbn [map wsum rename_w fst snd]. now rewrite IH. Qed.

  (** Feasible assignments correspond. *)
  Lemma reindex_feasible b : feasible (in_cls j) b <-> feasible (in_cls i) (fun v => b (f v)).
  Proof.
    unfold feasible, sat. rewrite (rx_cls _ _ _ X). split.
    - intros H c Hc. rewrite <- clause_true_rename. apply H. now apply in_map.
    - intros H c Hc. apply in_map_iff in Hc. destruct Hc as (d & <- & Hd).
      change (ri_map r) with f. rewrite clause_true_rename. auto.
  Qed.
  Lemma reindex_back a : exists b : asg, forall v, occurs i v -> b (f v) = a v.
  Proof.
    exists (fun x => match nth_error (ri_out r) x with Some v => a v | None => false end).
    intros v Hv. now rewrite (ri_dom_out v Hv).
  Qed.
  Lemma feasible_occurs a b : (forall v, occurs i v -> a v = b v) -> feasible (in_cls i) a -> feasible (in_cls i) b.
  Proof. intros H. apply (sat_agree (occurs i)); [exact H|]. intros v Hv. now left. Qed.
  Lemma costs_occurs a b : (forall v, occurs i v -> a v = b v) -> costs (in_objs i) a = costs (in_objs i) b.
  Proof.
    intros H. unfold costs. apply map_ext_in. intros o Ho. unfold obj_value. f_equal. f_equal.
    apply (wsum_agree (occurs i)); [exact H|]. intros v Hv. right. eauto.
  Qed.

  (** An objective with value [x] in the instance and [y] after reindexing *)
  Definition scaled (ro : raw_obj) (x y : Z) : Prop :=
    (forall w, uniform ro w -> (x - snd ro = Z.of_nat w * (y - snd ro))%Z) /\
    ((forall w, ~ uniform ro w) -> x = y).

  Lemma factor_uniform ro k w : uniform ro w -> factor (obj_new (fst ro) (snd ro) k) = w.
  Proof.
    intros [H1 H2]. unfold obj_new. destruct (fst ro) as [|[l w0] ls] eqn:e; [congruence|].
    assert (w0 = w) by (apply (H2 (l, w0)); now left). subst w0.
    destruct (existsb _ _) eqn:ex; [|reflexivity].
    apply existsb_exists in ex. destruct ex as (lw & Hin & Hx). rewrite (H2 lw Hin), Nat.eqb_refl in Hx. discriminate.
  Qed.
  Lemma factor_not ro k : (forall w, ~ uniform ro w) -> factor (obj_new (fst ro) (snd ro) k) = 1.
  Proof.
    intros H. unfold obj_new. destruct (fst ro) as [|[l w0] ls] eqn:e; [reflexivity|].
    destruct (existsb _ _) eqn:ex; [reflexivity|]. exfalso. apply (H w0). unfold uniform. rewrite e. split; [discriminate|].
    intros lw Hin. destruct (Nat.eq_dec (snd lw) w0) as [|Hne]; [assumption|]. exfalso.
    apply not_true_iff_false in ex. apply ex. apply existsb_exists. exists lw. split; [assumption|].
    apply negb_true_iff, Nat.eqb_neq, Hne.
  Qed.
  Lemma uniform_dec ro : {w | uniform ro w} + {forall w, ~ uniform ro w}.
  Proof.
    destruct (fst ro) as [|[l w0] ls] eqn:e.
    - right. intros w [H _]. congruence.
    - destruct (forallb (fun lw => snd lw =? w0) (fst ro)) eqn:ef.
      + left. exists w0. split; [congruence|]. intros lw Hlw. rewrite forallb_forall in ef. now apply Nat.eqb_eq, ef.
      + right. intros w [_ H]. apply not_true_iff_false in ef. apply ef. apply forallb_forall. intros lw Hlw.
        apply Nat.eqb_eq. rewrite (H lw Hlw). symmetry. apply (H (l, w0)). rewrite e. now left.
  Qed.

  Lemma scaled_value ro k b : obj_ok ro ->
    scaled ro (obj_value ro (fun v => b (f v)))
      (obj_value (map (rename_w f) (obj_iter (obj_new (fst ro) (snd ro) k)), obj_offset (obj_new (fst ro) (snd ro) k)) b).
  Proof.
    intros Hok. unfold obj_value at 2. cbn [fst snd]. rewrite wsum_rename.
    destruct (icost_value ro k (fun v => b (f v)) Hok) as (H1 & H2 & H3). rewrite H3.
    unfold icost in H1. split.
    - intros w Hw. rewrite (factor_uniform ro k w Hw) in H1. lia.
    - intros Hn. rewrite (factor_not ro k Hn) in H1. lia.
  Qed.

  (** Costs of corresponding assignments *)
  Lemma reindex_costs b : Forall obj_ok (in_objs i) ->
    Forall2 (fun ro xy => scaled ro (fst xy) (snd xy)) (in_objs i)
      (combine (costs (in_objs i) (fun v => b (f v))) (costs (in_objs j) b)).
  Proof.
    intros Hok. rewrite (rx_objs _ _ _ X). unfold costs. rewrite map_map. generalize 0 as k.
    induction Hok as [|ro rs Ho Hs IH]; intros k; cbn [build_objs map combine]; constructor.
    - cbn [fst snd]. now apply scaled_value.
    - apply IH.
  Qed.
  Lemma reindex_costs_eq b : Forall obj_ok (in_objs i) ->
    (forall ro w, In ro (in_objs i) -> uniform ro w -> w = 1) ->
    costs (in_objs j) b = costs (in_objs i) (fun v => b (f v)).
  Proof.
    intros Hok H1. rewrite (rx_objs _ _ _ X). unfold costs. rewrite map_map. generalize 0 as k.
    induction Hok as [|ro rs Ho Hs IH]; intros k; cbn [build_objs map]; [reflexivity|]. f_equal.
    - destruct (scaled_value ro k b Ho) as [Ha Hb]. destruct (uniform_dec ro) as [[w Hw]|Hn].
      + specialize (Ha w Hw). rewrite (H1 ro w (or_introl eq_refl) Hw) in Ha. change (ri_map r) with f. lia.
      + symmetry. auto.
    - apply IH. intros ro' w Hin. apply H1. now right.
  Qed.
  Lemma reindex_costs_le b d : Forall obj_ok (in_objs i) ->
    (weakly_dominates (costs (in_objs j) b) (costs (in_objs j) d) <->
     weakly_dominates (costs (in_objs i) (fun v => b (f v))) (costs (in_objs i) (fun v => d (f v)))).
  Proof.
    intros Hok. rewrite <- (ic_le _ Hok 0). rewrite (rx_objs _ _ _ X). unfold costs, ic, weakly_dominates, vle.
    rewrite !map_map. clear. generalize (build_objs 0 (in_objs i)) as os.
    induction os as [|o os IH]; cbn [map]; [split; intros; constructor|].
    assert (Ho : forall e, obj_value (map (rename_w (ri_map r)) (obj_iter o), obj_offset o) e = (obj_offset o + Z.of_nat (icost o (fun v => e (f v))))%Z).
    { intros e. unfold obj_value. cbn [fst snd]. change (ri_map r) with f. rewrite wsum_rename. reflexivity. }
    rewrite !Ho. split; intros H; inversion H; subst; constructor; try lia; now apply IH.
  Qed.

  (** The same assignments are optimal. *)
  Lemma reindex_optimal b : Forall obj_ok (in_objs i) -> feasible (in_cls j) b ->
    (pareto_optimal (in_cls j) (in_objs j) (costs (in_objs j) b) <->
     pareto_optimal (in_cls i) (in_objs i) (costs (in_objs i) (fun v => b (f v)))).
  Proof.
    intros Hok Hb.
    assert (Hwd : forall c d, weakly_dominates c d -> weakly_dominates d c -> c = d).
    { clear. unfold weakly_dominates. intros c d H. induction H; intros H'; inversion H'; subst; [reflexivity|]. f_equal; [lia|auto]. }
    split; intros [_ Hopt]; (split; [eexists; split; [|reflexivity]; try assumption; now apply reindex_feasible|]).
    - intros a Ha [Hd Hne]. destruct (reindex_back a) as [d Hdv].
      assert (Hda : forall v, occurs i v -> a v = d (f v)) by (intros v Hv; symmetry; auto).
      assert (Hdf : feasible (in_cls j) d) by (apply reindex_feasible; now apply (feasible_occurs a)).
      rewrite (costs_occurs a (fun v => d (f v)) Hda) in Hd, Hne.
      apply (Hopt d Hdf). split; [now apply reindex_costs_le|]. intros He. apply Hne.
      apply Hwd; apply reindex_costs_le; try assumption; rewrite He; apply wd_refl.
    - intros d Hdf [Hd Hne]. apply (Hopt (fun v => d (f v))); [now apply reindex_feasible|].
      split; [now apply reindex_costs_le|]. intros He. apply Hne.
      apply Hwd; apply reindex_costs_le; try assumption; rewrite He; apply wd_refl.
  Qed.
  Lemma reindex_front c : Forall obj_ok (in_objs i) ->
    (forall ro w, In ro (in_objs i) -> uniform ro w -> w = 1) ->
    (pareto_optimal (in_cls j) (in_objs j) c <-> pareto_optimal (in_cls i) (in_objs i) c).
  Proof.
    intros Hok H1. split.
    - intros Hp. pose proof Hp as [(b & Hb & <-) _].
      apply (reindex_optimal b Hok Hb) in Hp. now rewrite reindex_costs_eq.
    - intros Hp. pose proof Hp as [(a & Ha & <-) _]. destruct (reindex_back a) as [b Hbv].
      assert (Hba : forall v, occurs i v -> a v = b (f v)) by (intros v Hv; symmetry; auto).
      assert (Hbf : feasible (in_cls j) b) by (apply reindex_feasible; now apply (feasible_occurs a)).
      rewrite (costs_occurs a (fun v => b (f v)) Hba) in *. rewrite <- reindex_costs_eq by assumption.
      now apply reindex_optimal.
  Qed.

  Lemma wtotal_rename ls : wtotal (map (rename_w f) ls) = wtotal ls.
  Proof. induction ls as [|[l w] ls IH]; [reflexivity|]. cbn [map wtotal rename_w fst snd]. now rewrite IH. Qed.

  (** The reindexed instance is well formed. *)
  Lemma reindex_inst_ok : inst_ok i -> inst_ok j.
  Proof.
    intros Hok. pose proof (rx_pos _ _ _ X) as Hp.
    assert (Hnew : forall ro, In ro (in_objs j) -> exists r0 k, In r0 (in_objs i) /\
      ro = (map (rename_w f) (obj_iter (obj_new (fst r0) (snd r0) k)), snd r0)).
    { intros ro H. rewrite (rx_objs _ _ _ X) in H. apply in_map_iff in H. destruct H as (o & <- & Ho).
      apply build_In in Ho. destruct Ho as (r0 & k & H1 & ->). exists r0, k. split; [assumption|]. f_equal.
      unfold obj_new. destruct (fst r0) as [|[l w] ls]; [reflexivity|]. destruct (existsb _ _); reflexivity. }
    assert (Hocc : forall r0 k lw, In r0 (in_objs i) -> In lw (obj_iter (obj_new (fst r0) (snd r0) k)) -> occurs i (lvar (fst lw))).
    { intros r0 k lw H0 H. right. exists r0. split; [assumption|]. apply in_lits_vars. exists (fst lw). split; [|reflexivity].
      apply (obj_new_lits (fst r0) (snd r0) k). now apply in_map. }
    constructor.
    - rewrite (rx_vm _ _ _ X). cbn. lia.
    - rewrite (rx_vm _ _ _ X). cbn. lia.
    - intros x Hx. rewrite (rx_cls _ _ _ X) in Hx. apply in_cls_vars in Hx. destruct Hx as (c & Hc & Hx).
      apply in_map_iff in Hc. destruct Hc as (d & <- & Hd). apply in_lits_vars in Hx. destruct Hx as (l & Hl & <-).
      apply in_map_iff in Hl. destruct Hl as (l0 & <- & Hl0). apply reindex_onto. exists (lvar l0). split; [|reflexivity].
      left. apply in_cls_vars. exists d. split; [assumption|]. apply in_lits_vars. eauto.
    - intros ro x Hro Hx. destruct (Hnew ro Hro) as (r0 & k & H0 & ->). cbn [fst] in Hx.
      apply in_lits_vars in Hx. destruct Hx as (l & Hl & <-). rewrite map_map in Hl. apply in_map_iff in Hl.
      destruct Hl as (lw & <- & Hlw). apply reindex_onto. exists (lvar (fst lw)). split; [|reflexivity]. eapply Hocc; eauto.
    - apply Forall_forall. intros ro Hro. destruct (Hnew ro Hro) as (r0 & k & H0 & ->).
      pose proof (io_ok i Hok) as Ho. rewrite Forall_forall in Ho. destruct (Ho r0 H0) as [Hd Hz].
      assert (Hinj : forall x y, In x (obj_iter (obj_new (fst r0) (snd r0) k)) -> In y (obj_iter (obj_new (fst r0) (snd r0) k)) ->
        rename_lit f (fst x) = rename_lit f (fst y) -> fst x = fst y).
      { intros x y Hx Hy He. destruct (fst x) as [vx sx] eqn:ex, (fst y) as [vy sy] eqn:ey.
        unfold rename_lit in He. cbn in He. injection He as He ->. f_equal. apply reindex_inj; [| |assumption].
        - change vx with (lvar (mkLit vx sy)). rewrite <- ex. eapply Hocc; eauto.
        - change vy with (lvar (mkLit vy sy)). rewrite <- ey. eapply Hocc; eauto. }
      unfold obj_new in *. destruct (fst r0) as [|[l w] ls] eqn:er; [split; cbn; [left; constructor|now left]|].
      destruct (existsb _ _) eqn:ex; cbn [obj_iter] in *.
      + split; cbn [fst].
        * left. rewrite map_map. cbn [fst].
          assert (Hnd : NoDup (map fst (hm_collect ((l, w) :: ls)))) by apply hm_collect_nodup.
          revert Hnd Hinj. generalize (hm_collect ((l, w) :: ls)). clear. intros xs.
          induction xs as [|x xs IH]; cbn; intros Hnd Hinj; constructor.
          -- intros Hin. inversion Hnd; subst. apply in_map_iff in Hin. destruct Hin as (y & Hy & Hin).
             apply H1. rewrite <- (Hinj y x); auto. now apply in_map.
          -- inversion Hnd; subst. apply IH; [assumption|]. intros; apply Hinj; auto.
        * right. destruct Hz as [Hz|(lw & Hin & Hw)]; [discriminate|].
          destruct Hd as [Hd|Hd].
          -- rewrite (hm_collect_distinct _ Hd). exists (rename_w f lw). split; [now apply in_map|assumption].
          -- exfalso. apply existsb_exists in ex. destruct ex as (y & Hy & He).
             rewrite (Hd y (l, w) Hy (or_introl eq_refl)), Nat.eqb_refl in He. discriminate.
      + split; cbn [fst].
        * right. intros x y Hx Hy. apply in_map_iff in Hx, Hy. destruct Hx as (x' & <- & Hx), Hy as (y' & <- & Hy).
          apply in_map_iff in Hx, Hy. destruct Hx as (x'' & <- & _), Hy as (y'' & <- & _). reflexivity.
        * right. exists (rename_w f (l, 1)). split; [apply in_map; now left|]. cbn. lia.
    - apply Forall_forall. intros ro Hro. destruct (Hnew ro Hro) as (r0 & k & H0 & ->).
      pose proof (io_ok i Hok) as Ho. rewrite Forall_forall in Ho. destruct (Ho r0 H0) as [Hd Hz].
      pose proof (io_fits i Hok) as Hf. rewrite Forall_forall in Hf. destruct (Hf r0 H0) as (F1 & F2 & F3).
      unfold obj_fits. cbn [fst snd]. rewrite wtotal_rename.
      assert (Hle : wtotal (obj_iter (obj_new (fst r0) (snd r0) k)) <= wtotal (fst r0)).
      { unfold obj_new. destruct (fst r0) as [|[l w] ls] eqn:er; [reflexivity|].
        destruct (existsb _ _) eqn:ex; cbn [obj_iter].
        - destruct Hd as [Hd|Hd]; [now rewrite (hm_collect_distinct _ Hd)|].
          exfalso. apply existsb_exists in ex. destruct ex as (y & Hy & He).
          rewrite (Hd y (l, w) Hy (or_introl eq_refl)), Nat.eqb_refl in He. discriminate.
        - destruct Hz as [Hz|(lw & Hin & Hw)]; [discriminate|].
          assert (Hall : forall x, In x ((l, w) :: ls) -> snd x = w).
          { intros x Hx. destruct (Nat.eq_dec (snd x) w) as [|Hne]; [assumption|]. exfalso.
            apply not_true_iff_false in ex. apply ex. apply existsb_exists. exists x. split; [assumption|].
            apply negb_true_iff, Nat.eqb_neq, Hne. }
          rewrite (Hall lw Hin) in Hw. revert Hall. generalize ((l, w) :: ls). clear -Hw.
          intros xs. induction xs as [|[x y] xs IH]; cbn; intros Hall; [lia|].
          pose proof (Hall (x, y) (or_introl eq_refl)) as Hy. cbn in Hy.
          assert (wtotal (map (fun l => (l, 1)) (map fst xs)) <= wtotal xs) by (apply IH; intros; apply Hall; now right).
          lia. }
      lia.
  Qed.

  Lemma reindex_n_orig : n_orig j = ri_next r.
  Proof. unfold n_orig. rewrite (rx_vm _ _ _ X). cbn. pose proof (rx_pos _ _ _ X). lia. Qed.
  Lemma reindex_objs_orig : inst_ok i -> objs_orig j.
  Proof.
    intros Hok ro v Hro Hv. pose proof (io_objs j (reindex_inst_ok Hok) ro v Hro Hv) as H.
    rewrite reindex_n_orig. rewrite (rx_vm _ _ _ X) in H. cbn in H. pose proof (rx_pos _ _ _ X). lia.
  Qed.

  (** ** Reversing solutions *)

  Lemma assign_at_value sol n t v :
    var_value (assign_at n t sol) v = if Nat.eqb v n then t else var_value sol v.
  Proof.
    unfold var_value. revert sol v. induction n as [|n IH]; intros sol v.
    - destruct sol as [|x sol]; destruct v as [|v]; cbn; try reflexivity. destruct v; reflexivity.
    - destruct sol as [|x sol]; destruct v as [|v]; cbn; try reflexivity.
      + rewrite IH. destruct (Nat.eqb v n); [reflexivity|]. destruct v; reflexivity.
      + apply IH.
  Qed.
  Lemma fold_assign ls : forall acc v,
    (In v (lits_vars ls) -> False) -> var_value (fold_left assign_lit ls acc) v = var_value acc v.
  Proof.
    induction ls as [|l ls IH]; intros acc v H; [reflexivity|]. cbn [fold_left].
    rewrite IH by (intros Hin; apply H; cbn; auto). unfold assign_lit. rewrite assign_at_value.
    destruct (Nat.eqb_spec v (lvar l)) as [->|Hne]; [|reflexivity]. exfalso. apply H. cbn; auto.
  Qed.
  Lemma fold_assign_in ls : forall acc l, NoDup (lits_vars ls) -> In l ls ->
    var_value (fold_left assign_lit ls acc) (lvar l) = Some (negb (lneg l)).
  Proof.
    induction ls as [|l0 ls IH]; intros acc l Hnd Hin; [destruct Hin|]. cbn [fold_left].
    cbn in Hnd. inversion Hnd as [|x xs Hx Hxs]; subst. destruct Hin as [<-|Hin].
    - rewrite fold_assign by exact Hx. unfold assign_lit. now rewrite assign_at_value, Nat.eqb_refl.
    - now apply IH.
  Qed.
  Lemma filter_map_in {A B} (g : A -> option B) xs y : In y (filter_map g xs) <-> exists x, In x xs /\ g x = Some y.
  Proof.
    induction xs as [|x xs IH]; cbn [filter_map].
    - split; [intros []|intros (? & [] & _)].
    - destruct (g x) as [z|] eqn:e.
      + cbn [In]. rewrite IH. split.
        * intros [<-|(x' & H1 & H2)]; [exists x; split; [now left|assumption]|exists x'; split; [now right|assumption]].
        * intros (x' & [<-|H1] & H2); [left; congruence|right; eauto].
      + rewrite IH. split.
        * intros (x' & H1 & H2). exists x'. split; [now right|assumption].
        * intros (x' & [<-|H1] & H2); [congruence|eauto].
  Qed.
  Lemma sol_lits_nodup sol : forall k, NoDup (lits_vars (sol_lits_from k sol)).
  Proof.
    induction sol as [|[b|] sol IH]; intros k; cbn [sol_lits_from]; [constructor| |apply IH].
    cbn [lits_vars map]. constructor; [|apply IH]. cbn. intros H. apply in_lits_vars in H.
    destruct H as (l & Hl & He). apply sol_lits_from_in in Hl. destruct Hl as (n & b' & _ & ->). cbn in He. lia.
  Qed.
  Lemma reverse_nodup sol : NoDup (lits_vars (filter_map (ri_reverse_lit r) (sol_lits sol))).
  Proof.
    pose proof (sol_lits_nodup sol 0) as H. fold (sol_lits sol) in H. induction (sol_lits sol) as [|l ls IH]; [constructor|].
    cbn in H. inversion H as [|x xs Hx Hxs]; subst. cbn [filter_map].
    destruct (ri_reverse_lit r l) as [l'|] eqn:e; [|auto]. cbn [lits_vars map]. constructor; [|auto].
    intros Hin. apply in_lits_vars in Hin. destruct Hin as (l2 & Hl2 & He). apply filter_map_in in Hl2.
    destruct Hl2 as (l3 & Hl3 & He3). unfold ri_reverse_lit, ri_reverse in *.
    destruct (nth_error (ri_out r) (lvar l)) as [u|] eqn:e1; [|discriminate]. injection e as <-.
    destruct (nth_error (ri_out r) (lvar l3)) as [u'|] eqn:e2; [|discriminate]. injection He3 as <-.
    cbn in He. subst u'. apply ri_out_dom in e1, e2. apply Hx. apply in_lits_vars. exists l3. split; [assumption|].
    destruct e1 as [_ <-], e2 as [_ <-]. reflexivity.
  Qed.

  (** Every original variable that occurs gets the value of the variable it was renamed to,
      all others are unassigned. *)
  Lemma var_value_nth sol v b : var_value sol v = Some b <-> nth_error sol v = Some (Some b).
  Proof.
    unfold var_value. destruct (nth_error sol v) as [t|]; split; intros H; try discriminate.
    - now rewrite H.
    - now injection H.
  Qed.
  Lemma var_value_truncate sol m v :
    var_value (truncate sol m) v = if v <=? m then var_value sol v else None.
  Proof.
    unfold truncate, var_value. destruct (Nat.leb_spec v m) as [Hle|Hgt].
    - revert sol v Hle. induction m as [|m IH]; intros sol v Hle.
      + assert (v = 0) by lia. subst v. destruct sol; reflexivity.
      + destruct sol as [|x sol]; [reflexivity|]. destruct v as [|v]; [reflexivity|]. cbn [firstn nth_error].
        apply IH. lia.
    - destruct (nth_error (firstn (S m) sol) v) eqn:e; [|reflexivity].
      apply nth_lt in e. rewrite firstn_length in e. lia.
  Qed.
  Lemma reverse_sol_value sol v :
    (v <= vm_max_orig (in_vm i) -> occurs i v -> var_value (reverse_sol r sol) v = var_value sol (f v)) /\
    (~ occurs i v \/ vm_max_orig (in_vm i) < v -> var_value (reverse_sol r sol) v = None).
  Proof.
    unfold reverse_sol. rewrite var_value_truncate, (rx_old _ _ _ X).
    assert (Hno : (forall b, var_value sol (f v) = Some b -> ~ occurs i v) ->
      var_value (collect_lits (filter_map (ri_reverse_lit r) (sol_lits sol))) v = None).
    { intros H. unfold collect_lits. rewrite fold_assign; [unfold var_value; destruct v; reflexivity|].
      intros Hin. apply in_lits_vars in Hin. destruct Hin as (l & Hl & He). apply filter_map_in in Hl.
      destruct Hl as (l0 & Hl0 & Hr0). unfold ri_reverse_lit, ri_reverse in Hr0.
      destruct (nth_error (ri_out r) (lvar l0)) as [u|] eqn:e; [|discriminate]. injection Hr0 as <-.
      cbn in He. subst u. apply ri_out_dom in e. destruct e as [Ho Hf].
      unfold sol_lits in Hl0. apply sol_lits_from_in in Hl0. destruct Hl0 as (n & b & Hn & ->). cbn in Hf. subst n.
      apply var_value_nth in Hn. now apply (H b). }
    split.
    - intros Hle Ho. apply Nat.leb_le in Hle. rewrite Hle.
      destruct (var_value sol (f v)) as [b|] eqn:e.
      + assert (Hin : In (mkLit v (negb b)) (filter_map (ri_reverse_lit r) (sol_lits sol))).
        { apply filter_map_in. exists (mkLit (f v) (negb b)). split.
          - unfold sol_lits. apply sol_lits_from_in. exists (f v), b. split; [|reflexivity]. now apply var_value_nth.
          - unfold ri_reverse_lit, ri_reverse. cbn. now rewrite (ri_dom_out v Ho). }
        pose proof (fold_assign_in _ [] _ (reverse_nodup sol) Hin) as H. cbn in H. unfold collect_lits.
        rewrite H. now rewrite negb_involutive.
      + apply Hno. intros b H. discriminate.
    - intros [Hn|Hgt].
      + destruct (v <=? _); [|reflexivity]. apply Hno. intros b _. exact Hn.
      + destruct (Nat.leb_spec v (vm_max_orig (in_vm i))); [lia|reflexivity].
  Qed.
End Reindexed.
