(** * The clause blocking what a candidate weakly dominates *)
From Coq Require Import List Arith ZArith Lia Bool Sorted.
From Verif Require Import Base BaseLemmas Sem Ext Blk MTypes MPMinimal MPrepro ReindexThm VeriPB VeriThm MProofs ProofThm ProofRun ProofCut MTracer TracerThm ReformSpec ReformThm ReformRun MProofAlg ReifSpec ReifThm ReifRun ProofCert LinsuCert BlockSpec.
Import ListNotations.
Local Open Scope nat_scope.

(** ** Variables of the proof *)
Definition log_vars (p : pst) : list pv := flat_map step_vars (ps_log p).
Lemma rm_ids_in : forall ns es e, In e (rm_ids ns es) -> In e es.
Proof. intros ns es e H. unfold rm_ids in H. apply filter_In in H. exact (proj1 H). Qed.
Lemma pick_ids_in : forall ns es e, In e (pick_ids ns es) -> In e es.
Proof. intros ns es e H. unfold pick_ids in H. apply filter_In in H. exact (proj1 H). Qed.
Lemma step_uses : forall k s e v, In e (k_all (step_next k s)) -> In v (cvars (snd e)) ->
  In v (step_vars s) \/ exists e', In e' (k_all k) /\ In v (cvars (snd e')).
Proof.
  intros k s e v He Hv. destruct s as [p|c hs|c w gs|ls full|ids|ids gs]; cbn [step_next step_vars] in *.
  - destruct (pol_eval pv_eqd (id_get (k_all k) (k_next k)) p) as [c|] eqn:E; [|right; exists e; auto].
    apply in_add_der in He. destruct He as [->|He]; [|right; exists e; auto]. cbn [snd] in Hv.
    destruct (pol_vars _ _ _ _ E Hv) as (i & d & Ed & Hd). destruct (id_get_in _ _ _ _ Ed) as (j & Hj). right. exists (j, d). auto.
  - apply in_add_der in He. destruct He as [->|He]; [left; exact Hv|right; exists e; auto].
  - apply in_add_der in He. destruct He as [->|He]; [left; exact Hv|right; exists e; auto].
  - apply in_k_all in He. cbn [k_core k_der] in He. destruct He as [[<-|He]|He].
    + left. cbn [snd] in Hv. apply lb_clause_vars in Hv. rewrite map_map in Hv. exact Hv.
    + right. exists e. split; [apply in_k_all; left; exact He|exact Hv].
    + right. exists e. split; [apply in_k_all; right; exact He|exact Hv].
  - right. exists e. split; [|exact Hv]. apply in_k_all in He. cbn [k_core k_der] in He. apply in_k_all. destruct He as [He|He].
    + apply in_app_or in He. destruct He as [He|He]; [right; exact (pick_ids_in _ _ _ He)|left; exact He].
    + right. exact (rm_ids_in _ _ _ He).
  - right. exists e. split; [|exact Hv]. apply in_k_all in He. cbn [k_core k_der] in He. apply in_k_all.
    destruct He as [He|He]; [left|right]; exact (rm_ids_in _ _ _ He).
Qed.
Lemma steps_uses : forall ss k e v, In e (k_all (steps_next k ss)) -> In v (cvars (snd e)) ->
  In v (flat_map step_vars ss) \/ exists e', In e' (k_all k) /\ In v (cvars (snd e')).
Proof.
  induction ss as [|s ss IH]; intros k e v He Hv; [right; exists e; auto|]. cbn [steps_next flat_map] in *.
  destruct (IH _ e v He Hv) as [X|(e' & X & Y)]; [left; apply in_or_app; right; exact X|].
  destruct (step_uses k s e' v X Y) as [Z|Z]; [left; apply in_or_app; left; exact Z|right; exact Z].
Qed.
Lemma new_unused : forall k0 p nv r, new_from k0 p nv -> nv <= r -> unused (kof k0 p) r.
Proof.
  intros k0 p nv r H Hr e He X. destruct (H r Hr) as (H1 & H2). destruct (steps_uses _ _ e _ He X) as [Y|(e' & Y & Z)]; [exact (H2 Y)|exact (H1 e' Y Z)].
Qed.

(** ** What a run of the reification leaves *)
Record grows (V : list nat) (p p' : pst) : Prop := mkGrows {
  gs_vars : forall r, In (PVs r) (log_vars p') -> In (PVs r) (log_vars p) \/ In r V;
  gs_nextvar : ps_nextvar p <= ps_nextvar p';
  gs_bounds : forall key x, bound_get (ps_bounds p) key = Some x -> bound_get (ps_bounds p') key = Some x;
  gs_log : exists ss, ps_log p' = ps_log p ++ ss;
  gs_next : ps_next p <= ps_next p';
  gs_newb : forall key l d1 d2, bound_get (ps_bounds p') key = Some (l, d1, d2) ->
    bound_get (ps_bounds p) key = Some (l, d1, d2) \/ (ps_next p <= d1 /\ ps_next p <= d2)
}.
Lemma grows_refl : forall V p, grows V p p.
Proof. intros V p. constructor; auto. exists []. rewrite app_nil_r. reflexivity. Qed.
Lemma grows_trans : forall V p q r, grows V p q -> grows V q r -> grows V p r.
Proof.
  intros V p q r [a1 a2 a3 (s1 & a4) a5 a6] [b1 b2 b3 (s2 & b4) b5 b6]. constructor; [|lia|auto| |lia|].
  - intros v H. destruct (b1 v H) as [X|X]; [exact (a1 v X)|right; exact X].
  - exists (s1 ++ s2). rewrite b4, a4, app_assoc. reflexivity.
  - intros key l d1 d2 H. destruct (b6 _ _ _ _ H) as [X|X]; [exact (a6 _ _ _ _ X)|right; lia].
Qed.
Lemma grows_more : forall V W p q, incl V W -> grows V p q -> grows W p q.
Proof. intros V W p q H [a1 a2 a3 a4 a5 a6]. constructor; auto. intros r X. destruct (a1 r X) as [Y|Y]; [left; exact Y|right; exact (H _ Y)]. Qed.
Lemma grows_step : forall V s p n x vm bs rg, bs = ps_bounds p -> ps_nextvar p <= x -> ps_next p <= n -> (forall r, In (PVs r) (step_vars s) -> In r V) ->
  grows V p (mkPst n x (ps_log p ++ [s]) vm bs rg).
Proof.
  intros V s p n x vm bs rg -> Hx Hn H. constructor; cbn [ps_nextvar ps_bounds ps_next]; auto; [|eexists; reflexivity]. intros r X. unfold log_vars in *. cbn [ps_log] in X.
  rewrite flat_map_app in X. apply in_app_or in X. destruct X as [X|X]; [left; exact X|]. cbn [flat_map] in X. rewrite app_nil_r in X. right. exact (H r X).
Qed.
Lemma grows_wr_id : forall V s p, (forall r, In (PVs r) (step_vars s) -> In r V) -> grows V p (snd (wr_id s p)).
Proof. intros V s p H. apply grows_step; auto. Qed.
Lemma grows_wr : forall V s p, (forall r, In (PVs r) (step_vars s) -> In r V) -> grows V p (wr s p).
Proof. intros V s p H. apply grows_step; auto. Qed.
Lemma grows_cert : forall V c id p, grows V p (add_cert c id p).
Proof. intros V c id p. constructor; auto. exists []. rewrite app_nil_r. reflexivity. Qed.
Lemma grows_push : forall V x p, grows V p (push_value x p).
Proof. intros V x p. constructor; auto. exists []. rewrite app_nil_r. reflexivity. Qed.
Lemma key_eqb_sym : forall a b, key_eqb a b = true -> a = b.
Proof. intros a b H. destruct (key_eqb_spec a b) as [E|E]; [exact E|discriminate]. Qed.
Lemma grows_bound : forall V v o p x p', get_obj_bound v o p = (x, p') -> (forall l w, In (l, w) (obj_iter o) -> In (lvar l) V) -> grows V p p'.
Proof.
  intros V v o p x p' E H. unfold get_obj_bound in E. destruct (bound_get (ps_bounds p) (obj_idx o, v)) as [y|] eqn:Eg.
  - injection E as _ <-. apply grows_refl.
  - cbv zeta in E. unfold new_proof_var, wr_id in E. injection E as _ <-. constructor.
    + intros r X. unfold log_vars in *. cbn [ps_log add_bound push_value] in X. rewrite !flat_map_app in X. rewrite !in_app_iff in X.
      assert (Q : forall (f : lit * nat -> Z * ax pv) z, In (PVs r) (map (fun t : Z * ax pv => ax_var (snd t)) (map f (obj_iter o) ++ [z])) ->
        ax_var (snd z) = PVp (ps_nextvar p) -> (forall lw, ax_var (snd (f lw)) = PVs (lvar (fst lw))) -> In r V).
      { intros f z Y Hz Hf. rewrite map_app, in_app_iff, map_map in Y. destruct Y as [Y|[Y|[]]]; [|congruence].
        apply in_map_iff in Y. destruct Y as ([l w] & Y & Hl). rewrite Hf in Y. injection Y as <-. exact (H l w Hl). }
      destruct X as [[X|X]|X]; [left; exact X| |]; right; cbn [flat_map step_vars] in X; rewrite app_nil_r in X; (eapply Q; [exact X|reflexivity|reflexivity]).
    + cbn [ps_nextvar add_bound push_value]. lia.
    + intros key y Hy. cbn [ps_bounds add_bound push_value bound_get]. destruct (key_eqb (obj_idx o, v) key) eqn:Ek; [|exact Hy].
      apply key_eqb_sym in Ek. subst key. congruence.
    + cbn [ps_log add_bound push_value]. rewrite <- app_assoc. eexists. reflexivity.
    + cbn [ps_next add_bound push_value]. lia.
    + intros key l d1 d2 Hy. cbn [ps_bounds add_bound push_value bound_get ps_next] in Hy. destruct (key_eqb (obj_idx o, v) key); [|left; exact Hy].
      right. injection Hy as _ <- <-. lia.
Qed.
Definition set_vars (reif : lit) (as_ : list lit) : list nat := lvar reif :: map lvar as_.
Lemma impl_vars : forall (reif a : lit) r, In (PVs r) (cvars (clause_pb (lit_impl_lit reif a))) -> r = lvar reif \/ r = lvar a.
Proof.
  intros reif a r H. unfold clause_pb in H. apply lb_clause_vars in H. cbn in H. destruct H as [H|[H|[]]]; injection H as <-; auto.
Qed.
Lemma grows_eq : forall V s p i q, wr_id s p = (i, q) -> (forall r, In (PVs r) (step_vars s) -> In r V) -> grows V p q.
Proof. intros V s p i q E H. pose proof (grows_wr_id V s p H) as X. rewrite E in X. exact X. Qed.
Lemma reif_loop_grows : forall e value fi reif ifd V as_ val p p', reif_loop e value fi reif ifd val as_ p = Some p' ->
  In (lvar reif) V -> incl (map lvar as_) V -> grows V p p'.
Proof.
  intros e value fi reif ifd V as_. induction as_ as [|a r IH]; intros val p p' E Hr Hi; cbn [reif_loop] in E.
  - injection E as <-. apply grows_refl.
  - destruct (pe_details e (pe_next_higher e val)) as [[olit [i [oi|]]]|]; try discriminate. destruct (lit_eqb (lnot olit) a); [|discriminate].
    match type of E with (let '(_, _) := ?x in _) = _ => destruct x as [imp q] eqn:E1 end.
    match type of E with (let '(_, _) := ?x in _) = _ => destruct x as [id q2] eqn:E2 end.
    apply IH in E; [|exact Hr|intros x Hx; apply Hi; right; exact Hx]. refine (grows_trans _ _ _ _ _ E).
    refine (grows_trans _ _ _ _ (grows_eq V _ _ _ _ E1 _) _); [intros x []|].
    refine (grows_trans _ _ _ _ (grows_eq V _ _ _ _ E2 _) _).
    + cbn [step_vars]. intros x Hx. apply impl_vars in Hx. destruct Hx as [-> | ->]; [exact Hr|apply Hi; left; reflexivity].
    + eapply grows_trans; [apply grows_cert|]. apply grows_wr. intros x [].
Qed.
Lemma reif_grows : forall e value r a as_ p id p', certify_reif e value (mkLit r false) (a :: as_) p = Some (id, p') -> grows (r :: map lvar (a :: as_)) p p'.
Proof.
  intros e value r a as_ p id p' E. unfold certify_reif in E.
  match type of E with (let '(_, _) := ?x in _) = _ => destruct x as [i1 q1] eqn:E1 end.
  match type of E with (let '(_, _) := ?x in _) = _ => destruct x as [i2 q2] eqn:E2 end.
  destruct (pe_details e value) as [[olit [[fi|] oi]]|]; try discriminate. destruct (lit_eqb (lnot olit) a); [|discriminate].
  match type of E with match ?x with _ => _ end = _ => destruct x as [q|] eqn:El; [|discriminate] end. injection E as _ <-.
  apply (reif_loop_grows _ _ _ _ _ (r :: map lvar (a :: as_))) in El; [|left; reflexivity|intros x Hx; right; right; exact Hx].
  refine (grows_trans _ _ _ _ _ El).
  refine (grows_trans _ _ _ _ (grows_eq _ _ _ _ _ E1 _) _).
  { cbn [step_vars]. intros x Hx. apply impl_vars in Hx. destruct Hx as [-> | ->]; [left; reflexivity|right; left; reflexivity]. }
  refine (grows_trans _ _ _ _ (grows_eq _ _ _ _ _ E2 _) _).
  { cbn [step_vars]. intros x Hx. apply impl_vars in Hx. destruct Hx as [-> | ->]; [right; left; reflexivity|left; reflexivity]. }
  eapply grows_trans; [apply grows_push|]. apply grows_cert.
Qed.
Lemma reif_loop_buf_grows : forall e d1 reif ifd V as_ val p p', reif_loop_buf e d1 reif ifd val as_ p = Some p' ->
  In (lvar reif) V -> incl (map lvar as_) V -> grows V p p'.
Proof.
  intros e d1 reif ifd V as_. induction as_ as [|a r IH]; intros val p p' E Hr Hi; cbn [reif_loop_buf] in E.
  - injection E as <-. apply grows_refl.
  - assert (Hr' : incl (map lvar r) V) by (intros x Hx; apply Hi; right; exact Hx).
    assert (Hc : forall x, In (PVs x) (cvars (clause_pb (lit_impl_lit reif a))) -> In x V).
    { intros x Hx. apply impl_vars in Hx. destruct Hx as [-> | ->]; [exact Hr|apply Hi; left; reflexivity]. }
    destruct (pe_details e val) as [[olit [i oi]]|]; try discriminate. destruct (lvar a <? lvar olit).
    + match type of E with (let '(_, _) := ?x in _) = _ => destruct x as [i1 q1] eqn:E1 end.
      apply IH in E; [|exact Hr|exact Hr']. refine (grows_trans _ _ _ _ _ E).
      refine (grows_trans _ _ _ _ (grows_eq _ _ _ _ _ E1 _) _); [exact Hc|]. apply grows_cert.
    + destruct oi as [oi|]; [|discriminate]. destruct (lit_eqb (lnot olit) a); [|discriminate].
      match type of E with (let '(_, _) := ?x in _) = _ => destruct x as [i1 q1] eqn:E1 end.
      match type of E with (let '(_, _) := ?x in _) = _ => destruct x as [i2 q2] eqn:E2 end.
      apply IH in E; [|exact Hr|exact Hr']. refine (grows_trans _ _ _ _ _ E).
      refine (grows_trans _ _ _ _ (grows_eq _ _ _ _ _ E1 _) _); [intros x []|].
      refine (grows_trans _ _ _ _ (grows_eq _ _ _ _ _ E2 _) _); [exact Hc|].
      eapply grows_trans; [apply (grows_wr _ (SDel [CAbs i1] [])); intros x []|]. apply grows_cert.
Qed.
Lemma pvp_clause : forall (r : nat) b (ideal : ax pv) x, (exists n, ax_var ideal = PVp n) -> In (PVs x) (cvars (lb_clause [axiom (mkLit r b); ideal])) -> x = r.
Proof.
  intros r b ideal x (n & En) H. apply lb_clause_vars in H. cbn [map axiom ax_var lvar] in H. destruct H as [H|[H|[]]]; [injection H; auto|congruence].
Qed.
Lemma reif_buf_grows : forall e o value r as_ p id p', certify_reif_buf e o value (mkLit r false) as_ p = Some (id, p') ->
  (forall key x, bound_get (ps_bounds p) key = Some x -> exists n, ax_var (fst (fst x)) = PVp n) ->
  grows (r :: map lvar as_ ++ map (fun lw => lvar (fst lw)) (obj_iter o)) p p'.
Proof.
  intros e o value r as_ p id p' E Hb. unfold certify_reif_buf in E. set (V := r :: map lvar as_ ++ map (fun lw => lvar (fst lw)) (obj_iter o)).
  destruct (get_obj_bound value o p) as [[[ideal d1] d2] p0] eqn:Eg.
  match type of E with (let '(_, _) := ?x in _) = _ => destruct x as [i1 q1] eqn:E1 end.
  match type of E with (let '(_, _) := ?x in _) = _ => destruct x as [i2 q2] eqn:E2 end.
  match type of E with match ?x with _ => _ end = _ => destruct x as [q|] eqn:El; [|discriminate] end. injection E as _ <-.
  apply (reif_loop_buf_grows _ _ _ _ V) in El; [|left; reflexivity|intros x Hx; right; apply in_or_app; left; exact Hx].
  assert (Hi : exists n, ax_var ideal = PVp n).
  { pose proof Eg as X. unfold get_obj_bound in X. destruct (bound_get (ps_bounds p) (obj_idx o, value)) as [y|] eqn:G.
    - injection X as -> _. exact (Hb _ _ G).
    - cbv zeta in X. unfold new_proof_var, wr_id in X. injection X as <- _ _ _. eexists. reflexivity. }
  assert (Gb : grows V p p0).
  { apply (grows_bound V _ _ _ _ _ Eg). intros l w H. right. apply in_or_app. right. apply in_map_iff. exists (l, w). split; [reflexivity|exact H]. }
  refine (grows_trans _ _ _ _ Gb (grows_trans _ _ _ _ _ El)).
  refine (grows_trans _ _ _ _ (grows_eq _ _ _ _ _ E1 _) _).
  { cbn [step_vars]. intros x Hx. change (axiom (lnot (mkLit r false))) with (axiom (mkLit r true)) in Hx. apply pvp_clause in Hx; [left; symmetry; exact Hx|]. destruct Hi as (n & Hi). exists n. exact Hi. }
  refine (grows_trans _ _ _ _ (grows_eq _ _ _ _ _ E2 _) _).
  { cbn [step_vars]. intros x Hx. apply pvp_clause in Hx; [left; symmetry; exact Hx|exact Hi]. }
  apply grows_push.
Qed.

(** ** The extended witness *)
Lemma sol_value : forall f l, In l (sol_lits f) <-> lit_value f l = Some true.
Proof.
  intros f [v n]. unfold sol_lits. rewrite sol_lits_from_in. unfold lit_value, var_value. cbn [lvar lneg]. split.
  - intros (j & b & H & E). injection E as -> ->. cbn [Nat.add]. rewrite H. destruct b; reflexivity.
  - intros H. exists v. destruct (nth_error f v) as [[b|]|] eqn:E; try discriminate. exists b. split; [reflexivity|].
    cbn [Nat.add]. destruct n, b; cbn in H; try discriminate; reflexivity.
Qed.
Definition fw_lits (f : assignment) (pvs : list (ax pv)) : list (ax pv) := map axiom (sol_lits f) ++ pvs.
Lemma axiom_inj : forall l l', axiom l = axiom l' -> l = l'.
Proof. intros [v n] [v' n'] E. cbn in E. injection E as -> ->. reflexivity. Qed.
Definition proof_only (pvs : list (ax pv)) : Prop := forall l, In l pvs -> exists n, ax_var l = PVp n.
Lemma fw_solver : forall f pvs l, proof_only pvs -> (In (axiom l) (fw_lits f pvs) <-> lit_value f l = Some true).
Proof.
  intros f pvs l H. unfold fw_lits. rewrite in_app_iff, <- sol_value. split.
  - intros [X|X]; [|destruct (H _ X) as (n & E); discriminate]. apply in_map_iff in X. destruct X as (x & E & X). apply axiom_inj in E. subst x. exact X.
  - intros X. left. apply in_map. exact X.
Qed.
Lemma fw_assign : forall f pvs r b, proof_only pvs -> ~ In (axiom (mkLit r (negb b))) (fw_lits f pvs) ->
  forall l, In l (fw_lits (assign_lit f (mkLit r b)) pvs) <-> In l (fw_lits f pvs) \/ l = axiom (mkLit r b).
Proof.
  intros f pvs r b Hp Hn l. rewrite (fw_solver f pvs _ Hp) in Hn. unfold fw_lits. rewrite !in_app_iff.
  assert (Q : forall v, var_value (assign_lit f (mkLit r b)) v = if Nat.eqb v r then Some (negb b) else var_value f v).
  { intros v. unfold assign_lit. cbn [lvar lneg]. rewrite assign_at_value. reflexivity. }
  assert (R : forall x, In x (sol_lits (assign_lit f (mkLit r b))) <-> In x (sol_lits f) \/ x = mkLit r b).
  { intros [v n]. rewrite !sol_value. unfold lit_value in *. cbn [lvar lneg] in *. rewrite Q. destruct (Nat.eqb_spec v r) as [->|Hv].
    - split.
      + intros X. right. destruct n, b; cbn in X; congruence.
      + intros [X|X]; [|injection X as ->; destruct b; reflexivity]. destruct (var_value f r) as [y|]; [|discriminate].
        destruct n, y, b; cbn in *; congruence.
    - split; [tauto|]. intros [X|X]; [exact X|]. injection X as -> ->. congruence. }
  split.
  - intros [X|X]; [|tauto]. apply in_map_iff in X. destruct X as (x & <- & X). rewrite R in X. destruct X as [X | ->]; [left; left; apply in_map; exact X|right; reflexivity].
  - intros [[X|X]|X]; [|right; exact X|left; subst l; apply in_map; apply R; right; reflexivity].
    apply in_map_iff in X. destruct X as (x & <- & X). left. apply in_map. apply R. left. exact X.
Qed.
Lemma value_fix_only : forall costs vm st f pvs, value_fix costs vm st = Some (f, pvs) -> proof_only (snd st) -> proof_only pvs.
Proof.
  intros costs vm. induction vm as [|[this v] vm IH]; intros st f pvs E H; cbn [value_fix] in E.
  - injection E as ->. exact H.
  - assert (Q : forall b, proof_only (snd (assign_ax this b st))).
    { intros b. unfold assign_ax. set (t := if b then this else ax_not this). destruct (ax_var t) eqn:Et; cbn [snd]; [exact H|].
      intros l Hl. apply in_app_or in Hl. destruct Hl as [Hl|[<-|[]]]; [exact (H l Hl)|eexists; exact Et]. }
    destruct v as [that|i v].
    + destruct (lit_value (fst st) that) as [b|]; [|discriminate]. exact (IH _ _ _ E (Q b)).
    + destruct (nth_error costs i) as [c|]; [|discriminate]. exact (IH _ _ _ E (Q _)).
Qed.
Lemma fix_split : forall encs costs vm w fw, fix_witness encs costs vm w = Some fw -> exists f pvs, proof_only pvs /\ fw = fw_lits f pvs /\
  forall vs, fix_witness encs costs (vm ++ vs) w = match value_fix costs vs (f, pvs) with Some (f', pvs') => Some (fw_lits f' pvs') | None => None end.
Proof.
  intros encs costs vm w fw E. unfold fix_witness in E. destruct (value_fix costs vm _) as [[f pvs]|] eqn:Ev; [|discriminate]. injection E as <-.
  exists f, pvs. split; [apply (value_fix_only _ _ _ _ _ Ev); intros l []|]. split; [reflexivity|]. intros vs. unfold fix_witness. rewrite value_fix_app, Ev. reflexivity.
Qed.
Lemma fix_ident : forall encs costs vm w fw r a, fix_witness encs costs vm w = Some fw -> In (axiom (lnot a)) fw ->
  (forall l, In l fw -> ax_var l <> PVs r) ->
  exists fw', fix_witness encs costs (vm ++ [(axiom (mkLit r false), VIdentical a)]) w = Some fw' /\ forall l, In l fw' <-> In l fw \/ In l [axiom (mkLit r true)].
Proof.
  intros encs costs vm w fw r a E Ha Hr. destruct (fix_split _ _ _ _ _ E) as (f & pvs & Hp & -> & X). rewrite X. cbn [value_fix fst].
  rewrite (fw_solver _ _ _ Hp) in Ha.
  assert (La : lit_value f a = Some false).
  { unfold lit_value in *. destruct a as [v n]. cbn [lnot lvar lneg] in *. destruct (var_value f v) as [b|]; [|discriminate]. destruct n, b; cbn in *; congruence. }
  rewrite La. unfold assign_ax. cbn [ax_not axiom lvar lneg ax_var ax_neg negb fst snd]. eexists. split; [reflexivity|].
  intros l. rewrite (fw_assign f pvs r true Hp).
  - cbn [In]. split; [intros [Y | ->]; auto|intros [Y|[<-|[]]]; auto].
  - intros Y. apply (Hr _ Y). reflexivity.
Qed.
Lemma fix_atleast : forall encs costs r n i v c, nth_error costs i = Some c -> v <= c -> forall vs vm w fw, fix_witness encs costs vm w = Some fw ->
  (forall x, In x vs -> x = (axiom (mkLit r true), VObjAtLeast i v) \/ x = (mkAx (PVp n) false, VObjAtLeast i v)) ->
  ~ In (axiom (mkLit r false)) fw ->
  exists fw', fix_witness encs costs (vm ++ vs) w = Some fw' /\ forall l, In l fw' <-> In l fw \/ In l (map fst vs).
Proof.
  intros encs costs r n i v c Hc Hv vs. induction vs as [|x vs IH]; intros vm w fw E H Hr.
  - rewrite app_nil_r. exists fw. split; [exact E|]. intros l. cbn [map In]. tauto.
  - assert (Q : exists fw1, fix_witness encs costs (vm ++ [x]) w = Some fw1 /\ forall l, In l fw1 <-> In l fw \/ l = fst x).
    { destruct (fix_split _ _ _ _ _ E) as (f & pvs & Hp & -> & X). rewrite X.
      destruct (H x (or_introl eq_refl)) as [-> | ->]; cbn [value_fix]; rewrite Hc, (proj2 (Nat.leb_le v c) Hv); unfold assign_ax; cbn [axiom ax_var ax_neg lvar lneg fst snd].
      - eexists. split; [reflexivity|]. exact (fw_assign f pvs r true Hp Hr).
      - eexists. split; [reflexivity|]. intros l. unfold fw_lits. rewrite !in_app_iff. cbn [In]. split; [intros [Y|[Y|[Y|[]]]]; auto|intros [[Y|Y]|Y]; auto]. }
    destruct Q as (fw1 & E1 & H1). destruct (IH (vm ++ [x]) w fw1 E1) as (fw' & E' & H').
    { intros y Hy. apply H. right. exact Hy. }
    { intros Y. apply H1 in Y. destruct Y as [Y|Y]; [exact (Hr Y)|]. destruct (H x (or_introl eq_refl)) as [-> | ->]; discriminate. }
    exists fw'. rewrite <- app_assoc in E'. split; [exact E'|]. intros l. rewrite H', H1. cbn [map In]. split; [intros [[Y|Y]|Y]; auto|intros [Y|[Y|Y]]; auto].
Qed.
(** the same for the values of any other solution *)
Definition signed (b : bool) (l : ax pv) : ax pv := if b then l else ax_not l.
Lemma signed_var : forall b l, ax_var (signed b l) = ax_var l.
Proof. intros [|] l; reflexivity. Qed.
Lemma fix_ident_any : forall encs costs vm w fw r a b, fix_witness encs costs vm w = Some fw -> In (signed b (axiom a)) fw ->
  (forall l, In l fw -> ax_var l <> PVs r) ->
  exists fw', fix_witness encs costs (vm ++ [(axiom (mkLit r false), VIdentical a)]) w = Some fw' /\ forall l, In l fw' <-> In l fw \/ In l [axiom (mkLit r (negb b))].
Proof.
  intros encs costs vm w fw r a b E Ha Hr. destruct (fix_split _ _ _ _ _ E) as (f & pvs & Hp & -> & X). rewrite X. cbn [value_fix fst].
  assert (La : lit_value f a = Some b).
  { destruct b; cbn [signed] in Ha.
    - rewrite (fw_solver _ _ _ Hp) in Ha. exact Ha.
    - rewrite <- axiom_lnot, (fw_solver _ _ _ Hp) in Ha. unfold lit_value in *. destruct a as [v n]. cbn [lnot lvar lneg] in *. destruct (var_value f v) as [b|]; [|discriminate]. destruct n, b; cbn in *; congruence. }
  rewrite La. unfold assign_ax. destruct b; cbn [ax_not axiom lvar lneg ax_var ax_neg negb fst snd]; (eexists; split; [reflexivity|]; intros l).
  - rewrite (fw_assign f pvs r false Hp); [|intros Y; apply (Hr _ Y); reflexivity]. cbn [In]. split; [intros [Y | ->]; auto|intros [Y|[<-|[]]]; auto].
  - rewrite (fw_assign f pvs r true Hp); [|intros Y; apply (Hr _ Y); reflexivity]. cbn [In]. split; [intros [Y | ->]; auto|intros [Y|[<-|[]]]; auto].
Qed.
Lemma fix_atleast_any : forall encs costs r n i v c b, nth_error costs i = Some c -> (v <=? c) = b -> forall vs vm w fw, fix_witness encs costs vm w = Some fw ->
  (forall x, In x vs -> x = (axiom (mkLit r true), VObjAtLeast i v) \/ x = (mkAx (PVp n) false, VObjAtLeast i v)) ->
  ~ In (axiom (mkLit r (negb b))) fw ->
  exists fw', fix_witness encs costs (vm ++ vs) w = Some fw' /\ forall l, In l fw' <-> In l fw \/ In l (map (fun x => signed b (fst x)) vs).
Proof.
  intros encs costs r n i v c b Hc Hv vs. induction vs as [|x vs IH]; intros vm w fw E H Hr.
  - rewrite app_nil_r. exists fw. split; [exact E|]. intros l. cbn [map In]. tauto.
  - assert (Q : exists fw1, fix_witness encs costs (vm ++ [x]) w = Some fw1 /\ forall l, In l fw1 <-> In l fw \/ l = signed b (fst x)).
    { destruct (fix_split _ _ _ _ _ E) as (f & pvs & Hp & -> & X). rewrite X.
      destruct (H x (or_introl eq_refl)) as [-> | ->]; cbn [value_fix]; rewrite Hc, Hv; unfold assign_ax, signed; destruct b; cbn [axiom ax_not ax_var ax_neg lvar lneg fst snd negb].
      - eexists. split; [reflexivity|]. exact (fw_assign f pvs r true Hp Hr).
      - eexists. split; [reflexivity|]. exact (fw_assign f pvs r false Hp Hr).
      - eexists. split; [reflexivity|]. intros l. unfold fw_lits. rewrite !in_app_iff. cbn [In]. split; [intros [Y|[Y|[Y|[]]]]; auto|intros [[Y|Y]|Y]; auto].
      - eexists. split; [reflexivity|]. intros l. unfold fw_lits. rewrite !in_app_iff. cbn [In]. split; [intros [Y|[Y|[Y|[]]]]; auto|intros [[Y|Y]|Y]; auto]. }
    destruct Q as (fw1 & E1 & H1). destruct (IH (vm ++ [x]) w fw1 E1) as (fw' & E' & H').
    { intros y Hy. apply H. right. exact Hy. }
    { intros Y. apply H1 in Y. destruct Y as [Y|Y]; [exact (Hr Y)|]. destruct (H x (or_introl eq_refl)) as [-> | ->]; destruct b; discriminate. }
    exists fw'. rewrite <- app_assoc in E'. split; [exact E'|]. intros l. rewrite H', H1. cbn [map In]. split; [intros [[Y|Y]|Y]; auto|intros [Y|[Y|Y]]; auto].
Qed.
(** a literal that is true whenever the extended witness is satisfied belongs to it *)
Lemma forced_in : forall fw (l : ax pv), (exists a, ax_all a fw) -> (forall a, ax_all a fw -> ax_true a l = true) -> In l fw.
Proof.
  intros fw l (a & Ha) H.
  assert (D : forall x y : ax pv, {x = y} + {x <> y}) by (intros x y; decide equality; [apply Bool.bool_dec|apply pv_eqd]).
  destruct (in_dec D l fw) as [X|X]; [exact X|]. exfalso.
  pose proof (H a Ha) as T. assert (P : ax_all (put a (ax_var l) (ax_neg l)) fw).
  { intros y Hy. specialize (Ha y Hy). unfold ax_true, put in *. destruct (pv_eqd (ax_var l) (ax_var y)) as [Ev|Ev]; [|exact Ha].
    destruct (Bool.bool_dec (ax_neg l) (ax_neg y)) as [En|En].
    - exfalso. apply X. replace l with y; [exact Hy|]. destruct l, y. cbn in *. congruence.
    - destruct (ax_neg l), (ax_neg y); try reflexivity; congruence. }
  specialize (H _ P). unfold ax_true, put in H. destruct (pv_eqd (ax_var l) (ax_var l)); [|contradiction]. rewrite xorb_nilpotent in H. discriminate.
Qed.

(** the proof-only variables of the value map have their value in the extended witness *)
Lemma value_fix_keep : forall costs vm st f pvs l, value_fix costs vm st = Some (f, pvs) -> In l (snd st) -> In l pvs.
Proof.
  intros costs vm. induction vm as [|[this v] vm IH]; intros st f pvs l E H; cbn [value_fix] in E.
  - injection E as ->. exact H.
  - assert (Q : forall b, In l (snd (assign_ax this b st))).
    { intros b. unfold assign_ax. destruct (ax_var (if b then this else ax_not this)); cbn [snd]; [exact H|]. apply in_or_app. left. exact H. }
    destruct v as [that|i v].
    + destruct (lit_value (fst st) that) as [b|]; [|discriminate]. exact (IH _ _ _ _ E (Q b)).
    + destruct (nth_error costs i) as [c|]; [|discriminate]. exact (IH _ _ _ _ E (Q _)).
Qed.
Lemma value_fix_entry : forall costs n b i v c, nth_error costs i = Some c -> v <= c -> forall vm st f pvs, value_fix costs vm st = Some (f, pvs) ->
  In (mkAx (PVp n) b, VObjAtLeast i v) vm -> In (mkAx (PVp n) b) pvs.
Proof.
  intros costs n b i v c Hc Hv vm. induction vm as [|x vm IH]; intros st f pvs E H; [destruct H|]. destruct H as [->|H].
  - cbn [value_fix] in E. rewrite Hc, (proj2 (Nat.leb_le v c) Hv) in E. apply (value_fix_keep _ _ _ _ _ _ E). unfold assign_ax. cbn [ax_var snd]. apply in_or_app. right. left. reflexivity.
  - destruct x as [this [that|j w]]; cbn [value_fix] in E.
    + destruct (lit_value (fst st) that) as [y|]; [|discriminate]. exact (IH _ _ _ E H).
    + destruct (nth_error costs j) as [y|]; [|discriminate]. exact (IH _ _ _ E H).
Qed.
Lemma fix_entry : forall encs costs n b i v c vm w fw, nth_error costs i = Some c -> v <= c -> fix_witness encs costs vm w = Some fw ->
  In (mkAx (PVp n) b, VObjAtLeast i v) vm -> In (mkAx (PVp n) b) fw.
Proof.
  intros encs costs n b i v c vm w fw Hc Hv E H. unfold fix_witness in E. destruct (value_fix costs vm _) as [[f pvs]|] eqn:Ev; [|discriminate]. injection E as <-.
  apply in_or_app. right. exact (value_fix_entry _ _ _ _ _ _ Hc Hv _ _ _ _ Ev H).
Qed.

Lemma value_fix_entry_any : forall costs n d i v c b, nth_error costs i = Some c -> (v <=? c) = b -> forall vm st f pvs, value_fix costs vm st = Some (f, pvs) ->
  In (mkAx (PVp n) d, VObjAtLeast i v) vm -> In (signed b (mkAx (PVp n) d)) pvs.
Proof.
  intros costs n d i v c b Hc Hv vm. induction vm as [|x vm IH]; intros st f pvs E H; [destruct H|]. destruct H as [->|H].
  - cbn [value_fix] in E. rewrite Hc, Hv in E. apply (value_fix_keep _ _ _ _ _ _ E). unfold assign_ax, signed. destruct b; cbn [ax_not ax_var snd]; apply in_or_app; right; left; reflexivity.
  - destruct x as [this [that|j w]]; cbn [value_fix] in E.
    + destruct (lit_value (fst st) that) as [y|]; [|discriminate]. exact (IH _ _ _ E H).
    + destruct (nth_error costs j) as [y|]; [|discriminate]. exact (IH _ _ _ E H).
Qed.
Lemma fix_entry_any : forall encs costs n d i v c b vm w fw, nth_error costs i = Some c -> (v <=? c) = b -> fix_witness encs costs vm w = Some fw ->
  In (mkAx (PVp n) d, VObjAtLeast i v) vm -> In (signed b (mkAx (PVp n) d)) fw.
Proof.
  intros encs costs n d i v c b vm w fw Hc Hv E H. unfold fix_witness in E. destruct (value_fix costs vm _) as [[f pvs]|] eqn:Ev; [|discriminate]. injection E as <-.
  apply in_or_app. right. exact (value_fix_entry_any _ _ _ _ _ _ _ Hc Hv _ _ _ _ Ev H).
Qed.
(** an output whose definitions are in the proof has a value in the extended witness *)
Lemma t_sum_put : forall ts (a : pv -> bool) v b, ~ In v (map ax_var (map snd ts)) -> lb_sum (put a v b) ts = lb_sum a ts.
Proof.
  induction ts as [|[w l] ts IH]; intros a v b H; [reflexivity|]. cbn [map snd In] in H. cbn [lb_sum]. rewrite IH by tauto.
  f_equal. f_equal. unfold ax_true, put. destruct (pv_eqd v (ax_var l)) as [E|E]; [exfalso; apply H; left; symmetry; exact E|reflexivity].
Qed.
Lemma output_assigned : forall k e ts v o fw, w_wf ts -> has_out k e ts v o -> (exists a, ax_all a fw) -> (forall a, ax_all a fw -> proof_holds a k) ->
  exists b, In (signed b (axiom o)) fw.
Proof.
  intros k e ts v o fw Hw (fi & oi & O) (a & Ha) Hs.
  assert (D : forall x y : ax pv, {x = y} + {x <> y}) by (intros x y; decide equality; [apply Bool.bool_dec|apply pv_eqd]).
  destruct (in_dec D (axiom o) fw) as [X|X]; [exists true; exact X|]. destruct (in_dec D (ax_not (axiom o)) fw) as [Y|Y]; [exists false; exact Y|]. exfalso.
  assert (N : forall l, In l fw -> ax_var l <> PVs (lvar o)).
  { intros l Hl E. destruct (Bool.bool_dec (ax_neg l) (lneg o)) as [En|En].
    - apply X. replace (axiom o) with l; [exact Hl|]. destruct l. cbn in *. unfold axiom. congruence.
    - apply Y. replace (ax_not (axiom o)) with l; [exact Hl|]. destruct l as [lv ln], o as [ov on]. cbn in *. unfold ax_not. cbn. subst lv. f_equal. destruct ln, on; cbn; congruence. }
  assert (P : forall b, ax_all (put a (PVs (lvar o)) b) fw).
  { intros b l Hl. pose proof (Ha l Hl) as T. unfold ax_true, put in *. destruct (pv_eqd (PVs (lvar o)) (ax_var l)) as [E|E]; [exfalso; exact (N l Hl (eq_sym E))|exact T]. }
  assert (Q : forall b, put a (PVs (lvar o)) b (PVs (lvar o)) = b) by (intros b; unfold put; destruct (pv_eqd (PVs (lvar o)) (PVs (lvar o))); [reflexivity|contradiction]).
  pose proof (out_means _ _ _ _ _ _ _ _ Hw O (Hs _ (P true))) as M1. pose proof (out_means _ _ _ _ _ _ _ _ Hw O (Hs _ (P false))) as M2.
  rewrite t_sum_put in M1, M2 by exact (oa_out _ _ _ _ _ _ _ O). unfold ax_true in M1, M2. cbn [axiom ax_var ax_neg] in M1, M2. rewrite Q in M1, M2.
  rewrite <- M2 in M1. destruct (lneg o); cbn in M1; destruct M1 as (M3 & M4); [specialize (M4 eq_refl)|specialize (M3 eq_refl)]; discriminate.
Qed.

(** ** One reification *)
Lemma up_to_same : forall {V} (ds : list (lbc V)) r full full', (forall l, In l full' <-> In l full) -> up_to ds r full -> up_to ds r full'.
Proof.
  intros V ds r full full' H U. induction U as [r full E|r full c l Hc Hp U IH].
  - apply upt_done. intros l. rewrite H. apply E.
  - apply (upt_step _ _ _ c l Hc Hp). apply IH. exact H.
Qed.
Definition indexed (cs : list cobj) : Prop := forall i c, nth_error cs i = Some c -> obj_idx (co_obj c) = i.
Lemma objs_inj : forall cs, indexed cs -> forall o1 o2, In o1 (map co_obj cs) -> In o2 (map co_obj cs) -> obj_idx o1 = obj_idx o2 -> o1 = o2.
Proof.
  intros cs Hidx o1 o2 H1 H2 He. apply in_map_iff in H1. apply in_map_iff in H2. destruct H1 as (c1 & <- & H1). destruct H2 as (c2 & <- & H2).
  destruct (In_nth_error _ _ H1) as (i1 & N1). destruct (In_nth_error _ _ H2) as (i2 & N2). rewrite (Hidx _ _ N1), (Hidx _ _ N2) in He. congruence.
Qed.
Lemma cost_at : forall cs, indexed cs -> forall c, In c cs -> nth_error (map co_cost cs) (obj_idx (co_obj c)) = Some (co_cost c).
Proof. intros cs Hidx c Hc. destruct (In_nth_error _ _ Hc) as (i & N). rewrite (Hidx _ _ N). apply map_nth_error. exact N. Qed.

Lemma ready_step : forall k0 cs witness max_enc nv p fw p' V vs fw' N, ready k0 cs witness max_enc nv p fw ->
  wok k0 p' -> bounds_ok k0 (map co_obj cs) p' -> k_order (kof k0 p') = k_order (kof k0 p) ->
  (forall x, In x (k_all (kof k0 p)) -> In x (k_all (kof k0 p'))) ->
  grows V p p' -> (forall r, In r V -> r < S nv) -> ps_vmap p' = ps_vmap p ++ vs ->
  (forall x m, In x vs -> ax_var (fst x) = PVp m -> m < ps_nextvar p') ->
  fix_witness (map co_enc cs) (map co_cost cs) (ps_vmap p ++ vs) witness = Some fw' ->
  (forall l, In l fw' <-> In l fw \/ In l N) ->
  (forall l, In l N -> ax_var l = PVs nv \/ exists m, ax_var l = PVp m) -> (exists l, In l N /\ ax_var l = PVs nv) ->
  (forall m, ps_nextvar p <= m < ps_nextvar p' -> exists l, In l N /\ ax_var l = PVp m) ->
  (forall a, proof_holds a (kof k0 p) -> exists x, extends_at p nv a x /\ proof_holds x (kof k0 p')) ->
  (forall x, proof_holds x (kof k0 p') -> ax_all x fw -> forall l, In l N -> ax_true x l = true) ->
  up_to (map snd (k_all (kof k0 p'))) (map axiom (sol_lits (truncate witness max_enc))) fw' ->
  ready k0 cs witness max_enc (S nv) p' fw'.
Proof.
  intros k0 cs witness max_enc nv p fw p' V vs fw' N [R1 R2 R3 R4 R5 R6 R7 R8 R9 R10 R11 R12] W' B' Ho M G HV Ev Hvs Ef Hf HN Hr Hm Hc Ht Hup.
  assert (Hall : forall a, ax_all a fw' -> ax_all a fw) by (intros a Ha l Hl; apply Ha; apply Hf; left; exact Hl).
  assert (Hold : forall l n, In l fw -> ax_var l = PVp n -> n < ps_nextvar p).
  { intros l n Hl Hn. destruct (fix_witness_pv _ _ _ _ _ R7 l n Hl Hn) as (x & Hx & Ex). exact (R4 x n Hx Ex). }
  assert (Hkeep : forall a x, extends_at p nv a x -> ax_all a fw -> ax_all x fw).
  { intros a x He Ha l Hl. unfold ax_true. rewrite He; [exact (Ha l Hl)| |].
    - intros E. pose proof (R8 l nv Hl E). lia.
    - intros n E. exact (Hold l n Hl E). }
  constructor.
  - rewrite Ho. exact R1.
  - exact W'.
  - exact B'.
  - intros x m Hx E. rewrite Ev in Hx. apply in_app_or in Hx. destruct Hx as [Hx|Hx]; [pose proof (R4 x m Hx E); pose proof (gs_nextvar _ _ _ G); lia|exact (Hvs x m Hx E)].
  - intros r Hr'. destruct (R5 r ltac:(lia)) as (U1 & U2). split; [exact U1|]. intros X. destruct (gs_vars _ _ _ G r X) as [Y|Y]; [exact (U2 Y)|]. pose proof (HV r Y). lia.
  - eapply Forall_impl; [|exact R6]. intros c. apply cobj_ok_mono. exact M.
  - rewrite Ev. exact Ef.
  - intros l r Hl E. apply Hf in Hl. destruct Hl as [Hl|Hl]; [pose proof (R8 l r Hl E); lia|]. destruct (HN l Hl) as [X|(m & X)]; rewrite E in X; [injection X as ->; lia|discriminate].
  - destruct R9 as (a & Ha). destruct (R10 a Ha) as (Hp & _). destruct (Hc a Hp) as (x & Hx & Hp'). exists x. intros l Hl. apply Hf in Hl.
    destruct Hl as [Hl|Hl]; [exact (Hkeep a x Hx Ha l Hl)|exact (Ht x Hp' (Hkeep a x Hx Ha) l Hl)].
  - intros a Ha. destruct (R10 a (Hall a Ha)) as (Hp & Hco). split; [|exact Hco]. destruct (Hc a Hp) as (x & Hx & Hp').
    assert (HNa : forall l, In l N -> ax_true a l = true) by (intros l Hl; apply Ha; apply Hf; right; exact Hl).
    pose proof (Ht x Hp' (Hkeep a x Hx (Hall a Ha))) as HNx.
    assert (Same : forall l, In l N -> x (ax_var l) = a (ax_var l)).
    { intros l Hl. pose proof (HNa l Hl) as T1. pose proof (HNx l Hl) as T2. unfold ax_true in T1, T2. destruct (ax_neg l), (x (ax_var l)), (a (ax_var l)); cbn in *; congruence. }
    intros e He. apply (lb_holds_ext x); [|exact (Hp' e He)]. intros t Hin.
    assert (Hv : In (ax_var (snd t)) (cvars (snd e))) by (unfold cvars; apply in_map_iff; exists t; split; [reflexivity|exact Hin]).
    destruct (ax_var (snd t)) as [s|m] eqn:Et.
    + destruct (Nat.eq_dec s nv) as [->|Hs]; [destruct Hr as (l & Hl & <-); exact (Same _ Hl)|]. apply Hx; [congruence|discriminate].
    + destruct (le_lt_dec (ps_nextvar p) m) as [L|L].
      * destruct (Hm m) as (l & Hl & <-); [split; [exact L|exact (wk_fresh _ _ W' e m He Hv)]|]. exact (Same _ Hl).
      * apply Hx; [discriminate|]. intros n E. injection E as <-. exact L.
  - eapply Forall_impl; [|exact R11]. intros c H Hlt a Ha. exact (H Hlt a (Hall a Ha)).
  - exact Hup.
Qed.

(** constraints that were not there before have new ids *)
Lemma steps_new : forall ss k e, In e (k_all (steps_next k ss)) -> In e (k_all k) \/ k_next k <= fst e.
Proof.
  induction ss as [|s ss IH]; intros k e H; [left; exact H|]. cbn [steps_next fold_left] in H. destruct (IH _ _ H) as [X|X].
  - assert (Q : In e (k_all k) \/ fst e = k_next k).
    { destruct s as [p|c hs|c w gs|ls full|ids|ids gs]; cbn [step_next] in X.
      - destruct (pol_eval pv_eqd (id_get (k_all k) (k_next k)) p); [|left; exact X]. apply in_add_der in X. destruct X as [->|X]; [right; reflexivity|left; exact X].
      - apply in_add_der in X. destruct X as [->|X]; [right; reflexivity|left; exact X].
      - apply in_add_der in X. destruct X as [->|X]; [right; reflexivity|left; exact X].
      - apply in_k_all in X. cbn [k_core k_der] in X. destruct X as [[<-|X]|X]; [right; reflexivity| |]; left; apply in_k_all; auto.
      - left. apply in_k_all in X. apply in_k_all. cbn [k_core k_der] in X. destruct X as [X|X].
        + apply in_app_or in X. destruct X as [X|X]; [right; exact (pick_ids_in _ _ _ X)|left; exact X].
        + right. exact (rm_ids_in _ _ _ X).
      - left. apply in_k_all in X. apply in_k_all. cbn [k_core k_der] in X. destruct X as [X|X]; [left|right]; exact (rm_ids_in _ _ _ X). }
    destruct Q as [Q|Q]; [left; exact Q|right; lia].
  - right. assert (k_next k <= k_next (step_next k s)); [|lia]. destruct s; cbn [step_next add_der k_next]; try lia. destruct (pol_eval _ _ _); cbn [add_der k_next]; lia.
Qed.
Lemma log_new : forall k0 p p' ss e, wok k0 p -> ps_log p' = ps_log p ++ ss -> In e (k_all (kof k0 p')) -> In e (k_all (kof k0 p)) \/ ps_next p <= fst e.
Proof.
  intros k0 p p' ss e W E H. unfold kof in H. rewrite E, steps_next_app in H. fold (kof k0 p) in H. rewrite <- (wk_next _ _ W). exact (steps_new _ _ _ H).
Qed.

(** Another solution stays ready when the assumptions bounding an objective below the cost of the candidate are reified *)
Lemma lasting_gen : forall k0 L L' cs w me nv nv' p p' f, lasting k0 L cs w me nv p f -> wok k0 p' -> bounds_ok k0 (map co_obj cs) p' -> vmap_ok p' ->
  new_from k0 p' nv' -> nv <= nv' -> k_order (kof k0 p') = k_order (kof k0 p) -> ps_vmap p' = ps_vmap p ->
  (forall e, In e (rm_ids L (k_all (kof k0 p))) -> In e (rm_ids L' (k_all (kof k0 p')))) ->
  (forall i, In i L' -> i < ps_next p') -> (forall key l d1 d2, bound_get (ps_bounds p') key = Some (l, d1, d2) -> ~ In d1 L' /\ ~ In d2 L') ->
  (forall a, ax_all a f -> proof_holds a (kof k0 p) -> proof_holds a (kof k0 p')) -> lasting k0 L' cs w me nv' p' f.
Proof.
  intros k0 L L' cs w me nv nv' p p' f [R HL HB HC HU] W B V N Ln O Ev M' HL' HB' Hs. destruct R as [R1 R2 R3 R4 R5 R6 R7 R8 R9 R10 R11 R12].
  assert (Hc : Forall (cobj_ok (rm_ids L' (k_all (kof k0 p')))) cs) by (eapply Forall_impl; [|exact HC]; intros x; apply cobj_ok_mono; exact M').
  assert (Hu : up_to (map snd (rm_ids L' (k_all (kof k0 p')))) (map axiom (sol_lits (truncate w me))) f).
  { apply (up_to_more (map snd (rm_ids L (k_all (kof k0 p))))); [|exact HU]. intros x Hx. apply in_map_iff in Hx. destruct Hx as (e & <- & He). apply in_map. exact (M' e He). }
  constructor; try assumption. constructor; try assumption.
  - rewrite O. exact R1.
  - eapply Forall_impl; [|exact Hc]. intros x. apply cobj_ok_mono. intros e He. exact (rm_ids_in _ _ _ He).
  - rewrite Ev. exact R7.
  - intros l r Hl E. pose proof (R8 l r Hl E). lia.
  - intros a Ha. destruct (R10 a Ha) as (X & Y). split; [exact (Hs a Ha X)|exact Y].
  - apply (up_to_more (map snd (rm_ids L' (k_all (kof k0 p'))))); [|exact Hu]. intros x Hx. apply in_map_iff in Hx. destruct Hx as (e & <- & He). apply in_map. exact (rm_ids_in _ _ _ He).
Qed.
Lemma reify_others : forall k0 L cs w me nv p fw c value a b as_ id p', indexed cs -> lasting k0 L cs w me nv p fw -> In c cs ->
  (forall c l w, In c cs -> In (l, w) (obj_iter (co_obj c)) -> lvar l < nv) -> (forall x, In x (a :: b :: as_) -> lvar x < nv) ->
  (if pe_buf_empty (co_enc c) then exists ts, w_wf ts /\ outs_from (kof k0 p) (co_enc c) ts value (a :: b :: as_) /\ NoDup (map lvar (a :: b :: as_))
   else buf_from (kof k0 p) (co_enc c) (co_obj c) value value (a :: b :: as_)) ->
  certify_assump_reification (co_obj c) (co_enc c) value (mkLit nv false) (a :: b :: as_) p = Some (id, p') ->
  exists fw', lasting k0 L cs w me (S nv) p' fw'.
Proof.
  intros k0 L cs witness max_enc nv p fw c value a b as_ id p' Hidx [R HL HB HC HU] Hc Hobj Has Hpre Ecert.
  pose proof R as [R1 R2 R3 R4 R5 R6 R7 R8 R9 R10 R11 R12].
  assert (Hrefl : forall x, ord_holds (k_order (kof k0 p)) x x).
  { intros x. rewrite R1. apply ord_holds_objs. apply Forall_forall. intros o _. lia. }
  assert (Hfree : ord_free (k_order (kof k0 p)) (PVs nv)).
  { rewrite R1. intros d t x Hd Ht E X. apply in_map_iff in Hd. destruct Hd as (o & <- & Ho). unfold obj_order in Ht. cbn [lb_terms] in Ht.
    apply in_flat_map in Ht. destruct Ht as ([l w] & Hl & Ht). cbn [fst snd] in Ht. injection X as X. apply in_map_iff in Ho. destruct Ho as (c' & <- & Hc').
    pose proof (Hobj c' l w Hc' Hl). destruct Ht as [<-|[<-|[]]]; cbn [snd ax_var axiom] in E; [|discriminate]. injection E as E. subst. lia. }
  assert (Hun : unused (kof k0 p) nv) by (apply (new_unused k0 p nv nv R5); lia).
  assert (Hfr : forall l, In l fw -> ax_var l <> PVs nv) by (intros l Hl E; pose proof (R8 l nv Hl E); lia).
  assert (Safe : forall V, grows V p p' -> forall e, In e (k_all (kof k0 p')) -> In (PVs nv) (cvars (snd e)) -> ~ In (fst e) L).
  { intros V G e He Hv X. destruct (gs_log _ _ _ G) as (ss & El). destruct (log_new _ _ _ _ _ R2 El He) as [Y|Y]; [exact (Hun e Y Hv)|]. pose proof (HL _ X). lia. }
  assert (Finish : forall V fw', grows V p p' -> (forall x, In x (k_all (kof k0 p)) -> In x (k_all (kof k0 p'))) ->
    (up_to (map snd (rm_ids L (k_all (kof k0 p')))) (map axiom (sol_lits (truncate witness max_enc))) fw' -> ready k0 cs witness max_enc (S nv) p' fw') ->
    up_to (map snd (rm_ids L (k_all (kof k0 p')))) (map axiom (sol_lits (truncate witness max_enc))) fw' -> lasting k0 L cs witness max_enc (S nv) p' fw').
  { intros V fw' G M Hrd Hup. constructor.
    - exact (Hrd Hup).
    - intros i Hi. pose proof (HL i Hi). pose proof (gs_next _ _ _ G). lia.
    - intros key l d1 d2 Hg. destruct (gs_newb _ _ _ G _ _ _ _ Hg) as [Y|(Y1 & Y2)]; [exact (HB _ _ _ _ Y)|]. split; intros X; pose proof (HL _ X); lia.
    - eapply Forall_impl; [|exact HC]. intros x. apply cobj_ok_mono. intros e He. rewrite rm_in in *. destruct He as (He & Hn). split; [exact (M e He)|exact Hn].
    - exact Hup. }
  assert (More : forall fw', up_to (map snd (rm_ids L (k_all (kof k0 p')))) (map axiom (sol_lits (truncate witness max_enc))) fw' ->
    up_to (map snd (k_all (kof k0 p'))) (map axiom (sol_lits (truncate witness max_enc))) fw').
  { intros fw'. apply up_to_more. intros x Hx. apply in_map_iff in Hx. destruct Hx as (e & <- & He). apply in_map. exact (rm_ids_in _ _ _ He). }
  assert (Start : (forall x, In x (k_all (kof k0 p)) -> In x (k_all (kof k0 p'))) ->
    up_to (map snd (rm_ids L (k_all (kof k0 p')))) (map axiom (sol_lits (truncate witness max_enc))) fw).
  { intros M. apply (up_to_more (map snd (rm_ids L (k_all (kof k0 p))))); [|exact HU]. intros x Hx. apply in_map_iff in Hx. destruct Hx as (e & <- & He). apply in_map.
    rewrite rm_in in *. destruct He as (He & Hn). split; [exact (M e He)|exact Hn]. }
  unfold certify_assump_reification in Ecert. destruct (pe_buf_empty (co_enc c)) eqn:Eb.
  - destruct Hpre as (ts & Hw & Ho & Hnd).
    destruct (reif_ok k0 p (co_enc c) ts value nv a (b :: as_) R2 Hrefl Hfree Hun Hw Ho Hnd)
      as (id' & p'' & E & W' & M & Kc & Ko & Ke & Knv & Kb & Kv & Iid & (ids0 & Lids & Kreg & Hreg) & Hcons & _).
    rewrite E in Ecert. injection Ecert as -> ->.
    pose proof Ho as (Hout & _).
    destruct (output_assigned _ _ _ _ _ fw Hw Hout R9 (fun x Hx => proj1 (R10 x Hx))) as (bb & Hbb).
    assert (Hain : In (signed (negb bb) (axiom a)) fw).
    { rewrite axiom_lnot in Hbb. destruct bb; cbn [signed negb] in *; [exact Hbb|]. rewrite ax_not_not in Hbb. exact Hbb. }
    clear Hbb. set (v := negb bb) in *. clearbody v. clear bb.
    destruct (fix_ident_any _ _ _ _ _ nv a v R7 Hain Hfr) as (fw' & Ef & Hf).
    assert (Hifd : exists i, In (i, clause_pb (lit_impl_lit (mkLit nv false) a)) (k_all (kof k0 p'))).
    { destruct ids0 as [|i0 ids0]; [discriminate Lids|]. exists i0. apply Hreg. unfold regs. left. reflexivity. }
    assert (B' : bounds_ok k0 (map co_obj cs) p').
    { apply (bounds_mono k0 (map co_obj cs) p p' R3 Kb M). intros x Hx. rewrite Kv. apply in_or_app. left. exact Hx. }
    assert (Gr : grows (nv :: map lvar (a :: b :: as_)) p p') by exact (reif_grows _ _ _ _ _ _ _ _ E).
    assert (Hforce : exists e, In e (rm_ids L (k_all (kof k0 p'))) /\ forall x, lb_holds x (snd e) -> ax_all x fw -> ax_true x (axiom (mkLit nv (negb v))) = true).
    { destruct v; cbn [signed negb] in *.
      - exists (id, clause_pb [lnot a; mkLit nv false]). split.
        + rewrite rm_in. split; [exact Iid|]. apply (Safe _ Gr _ Iid). apply lb_clause_vars. right. left. reflexivity.
        + intros x Hh Hx. pose proof (Hx _ Hain) as T. cbn [snd] in Hh. unfold clause_pb in Hh. rewrite lb_clause_holds in Hh. destruct Hh as (l & Hl & Tl).
          destruct Hl as [<-|[<-|[]]]; [|exact Tl]. change (mkAx (PVs (lvar (lnot a))) (lneg (lnot a))) with (ax_not (axiom a)) in Tl. change (axiom (lnot a)) with (ax_not (axiom a)) in Tl. rewrite ax_not_true, T in Tl. discriminate.
      - destruct Hifd as (i & Hi). exists (i, clause_pb (lit_impl_lit (mkLit nv false) a)). split.
        + rewrite rm_in. split; [exact Hi|]. apply (Safe _ Gr _ Hi). apply lb_clause_vars. left. reflexivity.
        + intros x Hh Hx. pose proof (Hx _ Hain) as T. cbn [snd] in Hh. unfold clause_pb in Hh. rewrite lb_clause_holds in Hh. destruct Hh as (l & Hl & Tl).
          destruct Hl as [<-|[<-|[]]]; [exact Tl|]. rewrite ax_not_true, Tl in T. discriminate. }
    destruct Hforce as (e0 & He0 & Hforce).
    exists fw'. apply (Finish _ _ Gr M).
    + intros Hup. apply (ready_step k0 cs witness max_enc nv p fw p' (nv :: map lvar (a :: b :: as_)) [(axiom (mkLit nv false), VIdentical a)] fw' [axiom (mkLit nv (negb v))]); try assumption.
      * intros r [<-|Hr]; [lia|]. apply in_map_iff in Hr. destruct Hr as (l & <- & Hl). pose proof (Has l Hl). lia.
      * intros x m [<-|[]] X. discriminate.
      * intros l [<-|[]]. left. reflexivity.
      * eexists. split; [left; reflexivity|reflexivity].
      * intros m Hm. rewrite Knv in Hm. lia.
      * intros x Hx. exists (put x (PVs nv) (ax_true x (axiom a))). split; [|exact (Hcons x Hx)]. intros u Hu _. apply put_other. exact Hu.
      * intros x Hx Hxf l [<-|[]]. apply (Hforce x); [|exact Hxf]. apply Hx. exact (rm_ids_in _ _ _ He0).
      * exact (More _ Hup).
    + assert (U : up_to (map snd (rm_ids L (k_all (kof k0 p')))) (map axiom (sol_lits (truncate witness max_enc))) (fw ++ [axiom (mkLit nv (negb v))])).
      { apply up_to_ext; [exact (Start M)|]. intros l [<-|[]]. exists (snd e0). split; [exact (in_map snd _ _ He0)|]. intros x Hx Hh. exact (Hforce x Hh Hx). }
      apply (up_to_same _ _ (fw ++ [axiom (mkLit nv (negb v))])); [|exact U]. intros l. rewrite Hf, in_app_iff. tauto.
  - destruct (reif_buf_full k0 (map co_obj cs) p (co_enc c) (co_obj c) value nv (a :: b :: as_) R2 Hrefl Hfree Hun (objs_inj cs Hidx) (in_map co_obj _ _ Hc) R3)
      as (id' & p'' & n & E & W' & B' & M & Kc & Ko & Ke & (d1 & d2 & G) & (vm & Kv & Ivm & Hvm) & Iid & (ids0 & Lids & Kreg & Hreg) & Hcons & _ & (ifd & Iifd) & _ & Hnn & Hm).
    { intros l w Hl. pose proof (Hobj c l w Hc Hl). lia. }
    { exact Hpre. }
    rewrite E in Ecert. injection Ecert as -> ->.
    set (v := value <=? co_cost c).
    destruct (fix_atleast_any (map co_enc cs) (map co_cost cs) nv n (obj_idx (co_obj c)) value (co_cost c) v (cost_at cs Hidx c Hc) eq_refl vm (ps_vmap p) witness fw R7 Hvm) as (fw0 & Ef0 & Hf0).
    { intros X. exact (Hfr _ X eq_refl). }
    set (N := map (fun x => signed v (fst x)) vm) in *.
    destruct (B' _ _ _ _ _ G) as (o & n' & Ho1 & Ho2 & En & Id1 & Id2 & Iv).
    assert (Eo : o = co_obj c) by (apply (objs_inj cs Hidx); [exact Ho1|exact (in_map co_obj _ _ Hc)|exact Ho2]). subst o. injection En as <-.
    assert (Hnew : forall m, ps_nextvar p <= m < ps_nextvar p' -> exists l, In l N /\ ax_var l = PVp m).
    { intros m X. pose proof (Hm m X) as Em. subst m. rewrite Kv in Iv. apply in_app_or in Iv.
      destruct Iv as [Iv|Iv]; [pose proof (R4 _ n Iv eq_refl); lia|]. exists (signed v (mkAx (PVp n) false)). split; [exact (in_map (fun x => signed v (fst x)) vm _ Iv)|apply signed_var]. }
    assert (HN : forall l, In l N -> l = signed v (axiom (mkLit nv true)) \/ l = signed v (mkAx (PVp n) false)).
    { intros l Hl. apply in_map_iff in Hl. destruct Hl as (x & <- & Hx). destruct (Hvm x Hx) as [-> | ->]; auto. }
    assert (HNr : In (signed v (axiom (mkLit nv true))) N) by exact (in_map (fun x => signed v (fst x)) vm _ Ivm).
    assert (Gr : grows (nv :: map lvar (a :: b :: as_) ++ map (fun lw => lvar (fst lw)) (obj_iter (co_obj c))) p p').
    { apply (reif_buf_grows _ _ _ _ _ _ _ _ E). intros [i u] [[l e1] e2] Hg. destruct (R3 i u l e1 e2 Hg) as (? & m & _ & _ & -> & _). exists m. reflexivity. }
    assert (Hd12 : ~ In d1 L /\ ~ In d2 L).
    { destruct (gs_newb _ _ _ Gr _ _ _ _ G) as [Y|(Y1 & Y2)]; [exact (HB _ _ _ _ Y)|]. split; intros X; pose proof (HL _ X); lia. }
    assert (P1 : exists e, In e (rm_ids L (k_all (kof k0 p'))) /\ forall x, lb_holds x (snd e) -> ax_all x fw -> ax_true x (signed v (mkAx (PVp n) false)) = true).
    { unfold v. destruct (value <=? co_cost c) eqn:Ev; cbn [signed].
      - exists (d1, bound_def_1 (co_obj c) value (PVp n)). split; [rewrite rm_in; split; [exact Id1|exact (proj1 Hd12)]|].
        intros x Hh Hx. cbn [snd] in Hh. rewrite bound_def_1_holds in Hh. destruct (R10 x Hx) as (_ & Hco). specialize (Hco c Hc). apply Nat.leb_le in Ev.
        unfold ax_true. cbn [ax_var ax_neg]. destruct (x (PVp n)); [reflexivity|]. specialize (Hh eq_refl). lia.
      - exists (d2, bound_def_2 (co_obj c) value (PVp n)). split; [rewrite rm_in; split; [exact Id2|exact (proj2 Hd12)]|].
        intros x Hh Hx. cbn [snd] in Hh. rewrite bound_def_2_holds in Hh. destruct (R10 x Hx) as (_ & Hco). specialize (Hco c Hc). apply Nat.leb_gt in Ev.
        unfold ax_true. cbn [ax_not ax_var ax_neg negb]. destruct (x (PVp n)); [|reflexivity]. specialize (Hh eq_refl). lia. }
    assert (P2 : exists e, In e (rm_ids L (k_all (kof k0 p'))) /\ forall x, lb_holds x (snd e) -> ax_true x (signed v (mkAx (PVp n) false)) = true -> ax_true x (signed v (axiom (mkLit nv true))) = true).
    { destruct v; cbn [signed].
      - exists (ifd, lb_clause [axiom (mkLit nv true); mkAx (PVp n) true]). split; [rewrite rm_in; split; [exact Iifd|]|].
        + apply (Safe _ Gr _ Iifd). apply lb_clause_vars. left. reflexivity.
        + intros x Hh T. cbn [snd] in Hh. rewrite lb_clause_holds in Hh. destruct Hh as (l & [<-|[<-|[]]] & Tl); [exact Tl|].
          unfold ax_true in T, Tl. cbn [ax_var ax_neg] in T, Tl. destruct (x (PVp n)); discriminate.
      - exists (id, lb_clause [axiom (mkLit nv false); mkAx (PVp n) false]). split; [rewrite rm_in; split; [exact Iid|]|].
        + apply (Safe _ Gr _ Iid). apply lb_clause_vars. left. reflexivity.
        + intros x Hh T. cbn [snd] in Hh. rewrite lb_clause_holds in Hh. destruct Hh as (l & [<-|[<-|[]]] & Tl); [exact Tl|].
          unfold ax_true in T, Tl. cbn [ax_not ax_var ax_neg negb] in T, Tl. destruct (x (PVp n)); discriminate. }
    destruct P1 as (e1 & He1 & P1). destruct P2 as (e2 & He2 & P2).
    exists fw0. apply (Finish _ _ Gr M).
    + intros Hup. apply (ready_step k0 cs witness max_enc nv p fw p' (nv :: map lvar (a :: b :: as_) ++ map (fun lw => lvar (fst lw)) (obj_iter (co_obj c))) vm fw0 N); try assumption.
      * intros r [<-|Hr]; [lia|]. apply in_app_or in Hr. destruct Hr as [Hr|Hr]; apply in_map_iff in Hr; destruct Hr as (l & <- & Hl); [pose proof (Has l Hl); lia|].
        destruct l as [l w]. pose proof (Hobj c l w Hc Hl). cbn [fst]. lia.
      * intros x m Hx X. destruct (Hvm x Hx) as [-> | ->]; [discriminate|]. cbn [fst ax_var] in X. injection X as <-. exact Hnn.
      * intros l Hl. destruct (HN l Hl) as [-> | ->]; rewrite signed_var; [left; reflexivity|right; exists n; reflexivity].
      * eexists. split; [exact HNr|]. rewrite signed_var. reflexivity.
      * intros x Hx Hxf l Hl. pose proof (P1 x (Hx _ (rm_ids_in _ _ _ He1)) Hxf) as T. destruct (HN l Hl) as [-> | ->]; [exact (P2 x (Hx _ (rm_ids_in _ _ _ He2)) T)|exact T].
      * exact (More _ Hup).
    + assert (U1 : up_to (map snd (rm_ids L (k_all (kof k0 p')))) (map axiom (sol_lits (truncate witness max_enc))) (fw ++ [signed v (mkAx (PVp n) false)])).
      { apply up_to_ext; [exact (Start M)|]. intros l [<-|[]]. eexists. split; [exact (in_map snd _ _ He1)|]. intros x Hx Hh. exact (P1 x Hh Hx). }
      assert (U2 : up_to (map snd (rm_ids L (k_all (kof k0 p')))) (map axiom (sol_lits (truncate witness max_enc))) ((fw ++ [signed v (mkAx (PVp n) false)]) ++ [signed v (axiom (mkLit nv true))])).
      { apply up_to_ext; [exact U1|]. intros l [<-|[]]. eexists. split; [exact (in_map snd _ _ He2)|]. intros x Hx Hh. apply (P2 x Hh).
        apply Hx. apply in_or_app. right. left. reflexivity. }
      assert (Hn0 : In (signed v (mkAx (PVp n) false)) fw0).
      { apply (fix_entry_any _ _ n false _ _ _ v _ _ _ (cost_at cs Hidx c Hc) eq_refl Ef0). rewrite <- Kv. exact Iv. }
      apply (up_to_same _ _ ((fw ++ [signed v (mkAx (PVp n) false)]) ++ [signed v (axiom (mkLit nv true))])); [|exact U2]. intros l. rewrite !in_app_iff. cbn [In]. split.
      * intros X. apply Hf0 in X. destruct X as [X|X]; [left; left; exact X|]. destruct (HN l X) as [-> | ->]; auto.
      * intros [[X|[<-|[]]]|[<-|[]]]; [apply Hf0; left; exact X|exact Hn0|apply Hf0; right; exact HNr].
Qed.

Section Candidate.
Variables (k0 : chk) (cs : list cobj) (witness : assignment) (max_enc : nat).
Hypothesis Hidx : forall i c, nth_error cs i = Some c -> obj_idx (co_obj c) = i.

Definition link (k : chk) (nv : nat) (cl : clause) (ids : list nat) (l : ax pv) : Prop :=
  (forall v, ax_var l = PVs v -> v < nv) /\ exists bl, In bl cl /\ (l = axiom bl \/ exists id C, In id ids /\ In (id, C) (k_all k) /\
    forall a, lb_holds a C -> ax_true a l = true -> ax_true a (axiom bl) = true).
(** what the cut uses for [c] implies a literal of the clause *)
Definition linked (nv : nat) (p : pst) (cl : clause) (ids : list nat) (c : cobj) : Prop :=
  forall d q, cut_one (co_enc c) (co_obj c) (co_reform c) (co_cost c) p = Some (d, q) -> q = p /\ forall l, fst d = Some l -> link (kof k0 p) nv cl ids l.

Lemma multi_match : forall {A B} (it : list (A * nat)) (f : A -> B) (g : B), length it <> 1 ->
  match it with [(l, _)] => f l | _ => g end = g.
Proof. intros A B [|[l w] [|y it]] f g H; try reflexivity. exfalso. apply H. reflexivity. Qed.

(** the clause is false in the extended witness *)
Lemma cut_literal_false : forall nv p fw c a, ready k0 cs witness max_enc nv p fw -> In c cs -> obj_lb (co_obj c) < co_cost c -> cut_literal c a ->
  forall x, ax_all x fw -> ax_true x (axiom a) = false.
Proof.
  intros nv p fw c a R Hc Hlt Hl x Hx. destruct (rd_sat _ _ _ _ _ _ _ R x Hx) as (_ & Hco). specialize (Hco c Hc).
  pose proof (proj1 (Forall_forall _ _) (rd_outs _ _ _ _ _ _ _ R) c Hc Hlt x Hx) as (O1 & O2).
  destruct Hl as [(l & w & Hit & ->)|[(_ & N & ls & E)|(_ & _ & Hb & olit & i & dd & Hd & ->)]].
  - rewrite axiom_true. unfold icost in Hco. rewrite Hit in Hco. cbn [wsum] in Hco.
    destruct (lit_true (on_solver x) l) eqn:E0; [|lia]. unfold lit_true, lnot in *. cbn [lneg lvar].
    destruct (lneg l), (on_solver x (lvar l)); cbn in *; congruence.
  - exact (O1 a ls N E).
  - rewrite axiom_lnot, ax_not_true, (O2 olit _ Hb Hd). reflexivity.
Qed.
Lemma cut_literal_linked : forall nv p c a cl ids, lvar a < nv -> obj_lb (co_obj c) < co_cost c -> cut_literal c a -> In a cl -> linked nv p cl ids c.
Proof.
  intros nv p c a cl ids Hv Hlt Hl Hin d q E. unfold cut_one in E. rewrite (proj2 (Nat.leb_gt _ _) Hlt) in E.
  destruct Hl as [(l & w & Hit & ->)|[(Hn & N & ls & En)|(Hn & N & Hb & olit & i & dd & Hd & ->)]].
  - rewrite Hit in E. injection E as <- <-. split; [reflexivity|]. intros y Hy. injection Hy as <-. split; [intros v X; injection X as <-; exact Hv|]. exists (lnot l). split; [exact Hin|left; reflexivity].
  - rewrite multi_match in E by exact Hn. rewrite N, En in E. cbn [Nat.eqb] in E. injection E as <- <-. split; [reflexivity|].
    intros y Hy. injection Hy as <-. split; [intros v X; injection X as <-; exact Hv|]. exists a. split; [exact Hin|left; reflexivity].
  - rewrite multi_match in E by exact Hn. rewrite (proj2 (Nat.eqb_neq _ _) N), Hb, Hd in E. injection E as <- <-. split; [reflexivity|].
    intros y Hy. injection Hy as <-. split; [intros v X; injection X as <-; exact Hv|]. exists (lnot olit). split; [exact Hin|left; symmetry; apply axiom_lnot].
Qed.

(** what is kept by writing more lines *)
Record kept (p p' : pst) : Prop := mkKept {
  kp_all : forall x, In x (k_all (kof k0 p)) -> In x (k_all (kof k0 p'));
  kp_core : k_core (kof k0 p') = k_core (kof k0 p);
  kp_order : k_order (kof k0 p') = k_order (kof k0 p);
  kp_excl : k_excl (kof k0 p') = k_excl (kof k0 p);
  kp_bounds : forall key x, bound_get (ps_bounds p) key = Some x -> bound_get (ps_bounds p') key = Some x;
  kp_nextvar : ps_nextvar p <= ps_nextvar p';
  kp_reg : exists new, ps_reg p' = ps_reg p ++ new /\ forall c i, In (c, i) new -> In (i, clause_pb c) (k_all (kof k0 p'));
  kp_log : exists ss, ps_log p' = ps_log p ++ ss;
  kp_next : ps_next p <= ps_next p';
  kp_newb : forall key l d1 d2, bound_get (ps_bounds p') key = Some (l, d1, d2) ->
    bound_get (ps_bounds p) key = Some (l, d1, d2) \/ (ps_next p <= d1 /\ ps_next p <= d2)
}.
Lemma kept_refl : forall p, kept p p.
Proof.
  intros p. constructor; auto.
  - exists []. rewrite app_nil_r. split; [reflexivity|intros c i []].
  - exists []. rewrite app_nil_r. reflexivity.
Qed.
Lemma kept_trans : forall p q r, kept p q -> kept q r -> kept p r.
Proof.
  intros p q r [a1 a2 a3 a4 a5 a8 (n1 & a6 & a7) (s1 & c1) c2 c3] [b1 b2 b3 b4 b5 b8 (n2 & b6 & b7) (s2 & d1) d2 d3]. constructor; auto; try congruence; [lia| | |lia|].
  2:{ exists (s1 ++ s2). rewrite d1, c1, app_assoc. reflexivity. }
  2:{ intros key l e1 e2 H. destruct (d3 _ _ _ _ H) as [X|X]; [exact (c3 _ _ _ _ X)|right; lia]. }
  exists (n1 ++ n2). split; [rewrite b6, a6, app_assoc; reflexivity|]. intros c i H. apply in_app_or in H. destruct H as [H|H]; [exact (b1 _ (a7 _ _ H))|exact (b7 _ _ H)].
Qed.
Lemma bound_vars : forall p key x, bounds_ok k0 (map co_obj cs) p -> bound_get (ps_bounds p) key = Some x -> exists n, ax_var (fst (fst x)) = PVp n.
Proof.
  intros p [i v] [[l d1] d2] B G. destruct (B i v l d1 d2 G) as (o & n & _ & _ & -> & _). exists n. reflexivity.
Qed.

(** the cut finds what it needs for [c] *)
Definition cut_runs (p : pst) (c : cobj) : Prop :=
  forall q, (forall key x, bound_get (ps_bounds p) key = Some x -> bound_get (ps_bounds q) key = Some x) ->
  exists d, cut_one (co_enc c) (co_obj c) (co_reform c) (co_cost c) q = Some (d, q).
Lemma cut_literal_runs : forall p c a, obj_lb (co_obj c) < co_cost c -> cut_literal c a -> cut_runs p c.
Proof.
  intros p c a Hlt Hl q _. unfold cut_one. rewrite (proj2 (Nat.leb_gt _ _) Hlt).
  destruct Hl as [(l & w & Hit & ->)|[(Hn & N & ls & En)|(Hn & N & Hb & olit & i & dd & Hd & ->)]].
  - rewrite Hit. eexists. reflexivity.
  - rewrite multi_match by exact Hn. rewrite N, En. eexists. reflexivity.
  - rewrite multi_match by exact Hn. rewrite (proj2 (Nat.eqb_neq _ _) N), Hb, Hd. eexists. reflexivity.
Qed.
Lemma cut_runs_more : forall p p' c, kept p p' -> cut_runs p c -> cut_runs p' c.
Proof. intros p p' c K H q Hq. apply H. intros key x G. apply Hq. exact (kp_bounds _ _ K _ _ G). Qed.

(** ** One objective that needs several assumptions *)
Lemma reify_ready : forall nv p fw c a b as_, ready k0 cs witness max_enc nv p fw -> In c cs -> obj_lb (co_obj c) < co_cost c ->
  (forall c l w, In c cs -> In (l, w) (obj_iter (co_obj c)) -> lvar l < nv) -> (forall x, In x (a :: b :: as_) -> lvar x < nv) ->
  length (obj_iter (co_obj c)) <> 1 -> pe_nout (co_enc c) <> 1 ->
  (if pe_buf_empty (co_enc c) then exists ts, w_wf ts /\ outs_from (kof k0 p) (co_enc c) ts (co_cost c) (a :: b :: as_) /\ NoDup (map lvar (a :: b :: as_))
   else buf_from (kof k0 p) (co_enc c) (co_obj c) (co_cost c) (co_cost c) (a :: b :: as_)) ->
  exists id p' fw', certify_assump_reification (co_obj c) (co_enc c) (co_cost c) (mkLit nv false) (a :: b :: as_) p = Some (id, p') /\
    ready k0 cs witness max_enc (S nv) p' fw' /\ incl fw fw' /\ In (axiom (mkLit nv true)) fw' /\ kept p p' /\
    (exists C, In (id, C) (k_all (kof k0 p'))) /\
    (forall x, proof_holds x (kof k0 p) -> exists x', extends_at p nv x x' /\ proof_holds x' (kof k0 p')) /\
    cut_runs p' c /\
    forall nv' q cl ids, nv <= nv' -> kept p' q -> In (mkLit nv false) cl -> In id ids -> linked nv' q cl ids c.
Proof.
  intros nv p fw c a b as_ R Hc Hlt Hobj Has Hl1 Hn1 Hpre.
  pose proof R as [R1 R2 R3 R4 R5 R6 R7 R8 R9 R10 R11 R12].
  assert (Hrefl : forall x, ord_holds (k_order (kof k0 p)) x x).
  { intros x. rewrite R1. apply ord_holds_objs. apply Forall_forall. intros o _. lia. }
  assert (Hfree : ord_free (k_order (kof k0 p)) (PVs nv)).
  { rewrite R1. intros d t x Hd Ht E X. apply in_map_iff in Hd. destruct Hd as (o & <- & Ho). unfold obj_order in Ht. cbn [lb_terms] in Ht.
    apply in_flat_map in Ht. destruct Ht as ([l w] & Hl & Ht). cbn [fst snd] in Ht. injection X as X. apply in_map_iff in Ho. destruct Ho as (c' & <- & Hc').
    pose proof (Hobj c' l w Hc' Hl). destruct Ht as [<-|[<-|[]]]; cbn [snd ax_var axiom] in E; [|discriminate]. injection E as E. subst. lia. }
  assert (Hun : unused (kof k0 p) nv) by (apply (new_unused k0 p nv nv R5); lia).
  assert (Hfr : forall l, In l fw -> ax_var l <> PVs nv) by (intros l Hl E; pose proof (R8 l nv Hl E); lia).
  unfold certify_assump_reification. destruct (pe_buf_empty (co_enc c)) eqn:Eb.
  - destruct Hpre as (ts & Hw & Ho & Hnd).
    destruct (reif_ok k0 p (co_enc c) ts (co_cost c) nv a (b :: as_) R2 Hrefl Hfree Hun Hw Ho Hnd)
      as (id & p' & E & W' & M & Kc & Ko & Ke & Knv & Kb & Kv & Iid & (ids0 & Lids & Kreg & Hreg) & Hcons & _).
    pose proof Ho as ((fi & oi & Oa) & _). pose proof (oa_details _ _ _ _ _ _ _ Oa) as Hdet.
    assert (Hain : In (axiom (lnot a)) fw).
    { apply forced_in; [exact R9|]. intros x Hx. pose proof (proj1 (Forall_forall _ _) R11 c Hc Hlt x Hx) as (_ & O2). exact (O2 (lnot a) _ Eb Hdet). }
    destruct (fix_ident _ _ _ _ _ nv a R7 Hain Hfr) as (fw' & Ef & Hf).
    assert (Hifd : exists i, In (i, clause_pb (lit_impl_lit (mkLit nv false) a)) (k_all (kof k0 p'))).
    { destruct ids0 as [|i0 ids0]; [discriminate Lids|]. exists i0. apply Hreg. unfold regs. left. reflexivity. }
    assert (B' : bounds_ok k0 (map co_obj cs) p').
    { apply (bounds_mono k0 (map co_obj cs) p p' R3 Kb M). intros x Hx. rewrite Kv. apply in_or_app. left. exact Hx. }
    assert (Gr : grows (nv :: map lvar (a :: b :: as_)) p p') by exact (reif_grows _ _ _ _ _ _ _ _ E).
    assert (Hforce : forall x, lb_holds x (clause_pb (lit_impl_lit (mkLit nv false) a)) -> ax_all x fw -> ax_true x (axiom (mkLit nv true)) = true).
    { intros x Hh Hx. pose proof (Hx _ Hain) as T. unfold clause_pb in Hh. rewrite lb_clause_holds in Hh. destruct Hh as (l & Hl & Tl).
      destruct Hl as [<-|[<-|[]]]; [exact Tl|]. rewrite axiom_lnot, ax_not_true, Tl in T. discriminate. }
    exists id, p', fw'. split; [exact E|]. split; [|split; [|split; [|split; [|split; [|split; [|split]]]]]].
    + apply (ready_step k0 cs witness max_enc nv p fw p' (nv :: map lvar (a :: b :: as_)) [(axiom (mkLit nv false), VIdentical a)] fw' [axiom (mkLit nv true)]); try assumption.
      * intros r [<-|Hr]; [lia|]. apply in_map_iff in Hr. destruct Hr as (l & <- & Hl). pose proof (Has l Hl). lia.
      * intros x m [<-|[]] X. discriminate.
      * intros l [<-|[]]. left. reflexivity.
      * eexists. split; [left; reflexivity|reflexivity].
      * intros m Hm. rewrite Knv in Hm. lia.
      * intros x Hx. exists (put x (PVs nv) (ax_true x (axiom a))). split; [|exact (Hcons x Hx)]. intros v Hv _. apply put_other. exact Hv.
      * intros x Hx Hxf l [<-|[]]. destruct Hifd as (i & Hi). exact (Hforce x (Hx _ Hi) Hxf).
      * destruct Hifd as (i & Hi).
        assert (U : up_to (map snd (k_all (kof k0 p'))) (map axiom (sol_lits (truncate witness max_enc))) (fw ++ [axiom (mkLit nv true)])).
        { apply up_to_ext.
          - apply (up_to_more (map snd (k_all (kof k0 p)))); [|exact R12]. intros x Hx. apply in_map_iff in Hx. destruct Hx as (e & <- & He). apply in_map. exact (M e He).
          - intros l [<-|[]]. exists (clause_pb (lit_impl_lit (mkLit nv false) a)). split; [exact (in_map snd _ _ Hi)|]. intros x Hx Hh. exact (Hforce x Hh Hx). }
        apply (up_to_same _ _ (fw ++ [axiom (mkLit nv true)])); [|exact U]. intros l. rewrite Hf, in_app_iff. tauto.
    + intros l Hl. apply Hf. left. exact Hl.
    + apply Hf. right. left. reflexivity.
    + constructor; try assumption.
      * intros key x G. rewrite Kb. exact G.
      * rewrite Knv. lia.
      * eexists. split; [exact Kreg|exact Hreg].
      * exact (gs_log _ _ _ Gr).
      * exact (gs_next _ _ _ Gr).
      * exact (gs_newb _ _ _ Gr).
    + eexists. exact Iid.
    + intros x Hx. exists (put x (PVs nv) (ax_true x (axiom a))). split; [|exact (Hcons x Hx)]. intros v Hv _. apply put_other. exact Hv.
    + intros q _. unfold cut_one. rewrite (proj2 (Nat.leb_gt _ _) Hlt), multi_match, (proj2 (Nat.eqb_neq _ _) Hn1), Eb, Hdet by exact Hl1. eexists. reflexivity.
    + intros nv' q cl ids Lv Q Hin Hid d q' E1. unfold cut_one in E1. rewrite (proj2 (Nat.leb_gt _ _) Hlt), multi_match, (proj2 (Nat.eqb_neq _ _) Hn1), Eb, Hdet in E1 by exact Hl1.
      injection E1 as <- <-. split; [reflexivity|]. intros y Hy. injection Hy as <-. split; [intros v X; injection X as <-; pose proof (Has a (or_introl eq_refl)); cbn [lnot lvar]; lia|]. exists (mkLit nv false). split; [exact Hin|]. right.
      exists id, (clause_pb [lnot a; mkLit nv false]). split; [exact Hid|]. split; [exact (kp_all _ _ Q _ Iid)|]. intros x Hh T.
      unfold clause_pb in Hh. rewrite lb_clause_holds in Hh. destruct Hh as (l & Hl & Tl). destruct Hl as [<-|[<-|[]]]; [|exact Tl].
      exfalso. change (mkAx (PVs (lvar (lnot a))) (lneg (lnot a))) with (axiom (lnot a)) in *. rewrite ax_not_true, Tl in T. discriminate.
  - destruct (reif_buf_full k0 (map co_obj cs) p (co_enc c) (co_obj c) (co_cost c) nv (a :: b :: as_) R2 Hrefl Hfree Hun (objs_inj cs Hidx) (in_map co_obj _ _ Hc) R3)
      as (id & p' & n & E & W' & B' & M & Kc & Ko & Ke & (d1 & d2 & G) & (vm & Kv & Ivm & Hvm) & Iid & (ids0 & Lids & Kreg & Hreg) & Hcons & _ & (ifd & Iifd) & (d1' & Id1) & Hnn & Hm).
    { intros l w Hl. pose proof (Hobj c l w Hc Hl). lia. }
    { exact Hpre. }
    destruct (fix_atleast (map co_enc cs) (map co_cost cs) nv n (obj_idx (co_obj c)) (co_cost c) (co_cost c) (cost_at cs Hidx c Hc) (le_n _) vm (ps_vmap p) witness fw R7 Hvm) as (fw0 & Ef0 & Hf0).
    { intros X. exact (Hfr _ X eq_refl). }
    assert (Hnew : forall m, ps_nextvar p <= m < ps_nextvar p' -> exists l, In l (map fst vm) /\ ax_var l = PVp m).
    { intros m X. pose proof (Hm m X) as Em. subst m. destruct (B' _ _ _ _ _ G) as (o & n' & _ & _ & En & _ & _ & Iv). rewrite Kv in Iv. apply in_app_or in Iv.
      destruct Iv as [Iv|Iv]; [pose proof (R4 _ n Iv eq_refl); lia|]. eexists. split; [exact (in_map fst _ _ Iv)|reflexivity]. }
    assert (HN : forall l, In l (map fst vm) -> l = axiom (mkLit nv true) \/ l = mkAx (PVp n) false).
    { intros l Hl. apply in_map_iff in Hl. destruct Hl as (x & <- & Hx). destruct (Hvm x Hx) as [-> | ->]; auto. }
    assert (HNr : In (axiom (mkLit nv true)) (map fst vm)) by exact (in_map fst _ _ Ivm).
    assert (P1 : forall x, lb_holds x (bound_def_1 (co_obj c) (co_cost c) (PVp n)) -> ax_all x fw -> ax_true x (mkAx (PVp n) false) = true).
    { intros x Hh Hx. rewrite bound_def_1_holds in Hh. destruct (R10 x Hx) as (_ & Hco). specialize (Hco c Hc).
      unfold ax_true. cbn [ax_var ax_neg]. destruct (x (PVp n)); [reflexivity|]. specialize (Hh eq_refl). lia. }
    assert (P2 : forall x, lb_holds x (lb_clause [axiom (mkLit nv true); mkAx (PVp n) true]) -> ax_true x (mkAx (PVp n) false) = true -> ax_true x (axiom (mkLit nv true)) = true).
    { intros x Hh T. rewrite lb_clause_holds in Hh. destruct Hh as (l & [<-|[<-|[]]] & Tl); [exact Tl|].
      unfold ax_true in T, Tl. cbn [ax_var ax_neg] in T, Tl. destruct (x (PVp n)); discriminate. }
    assert (Gr : grows (nv :: map lvar (a :: b :: as_) ++ map (fun lw => lvar (fst lw)) (obj_iter (co_obj c))) p p').
    { apply (reif_buf_grows _ _ _ _ _ _ _ _ E). intros key x. apply bound_vars. exact R3. }
    exists id, p', fw0. split; [exact E|]. split; [|split; [|split; [|split; [|split; [|split; [|split]]]]]].
    + apply (ready_step k0 cs witness max_enc nv p fw p' (nv :: map lvar (a :: b :: as_) ++ map (fun lw => lvar (fst lw)) (obj_iter (co_obj c))) vm fw0 (map fst vm)); try assumption.
      * intros r [<-|Hr]; [lia|]. apply in_app_or in Hr. destruct Hr as [Hr|Hr]; apply in_map_iff in Hr; destruct Hr as (l & <- & Hl); [pose proof (Has l Hl); lia|].
        destruct l as [l w]. pose proof (Hobj c l w Hc Hl). cbn [fst]. lia.
      * intros x m Hx X. destruct (Hvm x Hx) as [-> | ->]; [discriminate|]. cbn [fst ax_var] in X. injection X as <-. exact Hnn.
      * intros l Hl. destruct (HN l Hl) as [-> | ->]; [left; reflexivity|right; exists n; reflexivity].
      * eexists. split; [exact HNr|reflexivity].
      * intros x Hx Hxf l Hl. pose proof (P1 x (Hx _ Id1) Hxf) as T. destruct (HN l Hl) as [-> | ->]; [exact (P2 x (Hx _ Iifd) T)|exact T].
      * assert (U1 : up_to (map snd (k_all (kof k0 p'))) (map axiom (sol_lits (truncate witness max_enc))) (fw ++ [mkAx (PVp n) false])).
        { apply up_to_ext.
          - apply (up_to_more (map snd (k_all (kof k0 p)))); [|exact R12]. intros x Hx. apply in_map_iff in Hx. destruct Hx as (e & <- & He). apply in_map. exact (M e He).
          - intros l [<-|[]]. eexists. split; [exact (in_map snd _ _ Id1)|]. intros x Hx Hh. exact (P1 x Hh Hx). }
        assert (U2 : up_to (map snd (k_all (kof k0 p'))) (map axiom (sol_lits (truncate witness max_enc))) ((fw ++ [mkAx (PVp n) false]) ++ [axiom (mkLit nv true)])).
        { apply up_to_ext; [exact U1|]. intros l [<-|[]]. eexists. split; [exact (in_map snd _ _ Iifd)|]. intros x Hx Hh. apply (P2 x Hh).
          apply Hx. apply in_or_app. right. left. reflexivity. }
        assert (Hn0 : In (mkAx (PVp n) false) fw0).
        { apply (fix_entry _ _ n false _ _ _ _ _ _ (cost_at cs Hidx c Hc) (le_n _) Ef0). rewrite <- Kv.
          destruct (B' _ _ _ _ _ G) as (o & n' & _ & _ & _ & _ & _ & Iv). exact Iv. }
        apply (up_to_same _ _ ((fw ++ [mkAx (PVp n) false]) ++ [axiom (mkLit nv true)])); [|exact U2]. intros l. rewrite !in_app_iff. cbn [In]. split.
        -- intros X. apply Hf0 in X. destruct X as [X|X]; [left; left; exact X|]. destruct (HN l X) as [-> | ->]; auto.
        -- intros [[X|[<-|[]]]|[<-|[]]]; [apply Hf0; left; exact X|exact Hn0|apply Hf0; right; exact HNr].
    + intros l Hl. apply Hf0. left. exact Hl.
    + apply Hf0. right. exact HNr.
    + constructor; try assumption.
      * exact (gs_bounds _ _ _ Gr).
      * exact (gs_nextvar _ _ _ Gr).
      * eexists. split; [exact Kreg|exact Hreg].
      * exact (gs_log _ _ _ Gr).
      * exact (gs_next _ _ _ Gr).
      * exact (gs_newb _ _ _ Gr).
    + eexists. exact Iid.
    + exact Hcons.
    + intros q Hq. unfold cut_one. rewrite (proj2 (Nat.leb_gt _ _) Hlt), multi_match, (proj2 (Nat.eqb_neq _ _) Hn1), Eb by exact Hl1.
      unfold get_obj_bound. rewrite (Hq _ _ G). eexists. reflexivity.
    + intros nv' q cl ids Lv Q Hin Hid d q' E1. unfold cut_one in E1. rewrite (proj2 (Nat.leb_gt _ _) Hlt), multi_match, (proj2 (Nat.eqb_neq _ _) Hn1), Eb in E1 by exact Hl1.
      unfold get_obj_bound in E1. rewrite (kp_bounds _ _ Q _ _ G) in E1. injection E1 as <- <-. split; [reflexivity|]. intros y Hy. injection Hy as <-. split; [discriminate|].
      exists (mkLit nv false). split; [exact Hin|]. right. exists id, (lb_clause [axiom (mkLit nv false); mkAx (PVp n) false]). split; [exact Hid|].
      split; [exact (kp_all _ _ Q _ Iid)|]. intros x Hh T. rewrite lb_clause_holds in Hh. destruct Hh as (l & [<-|[<-|[]]] & Tl); [exact Tl|].
      exfalso. unfold ax_not, ax_true in *. cbn [ax_var ax_neg negb] in *. destruct (x (PVp n)); discriminate.
Qed.

(** Other solutions stay ready *)
Definition others (nv : nat) (p : pst) (nv' : nat) (p' : pst) : Prop :=
  forall L cs' w me f, Forall2 same_but_cost cs cs' -> lasting k0 L cs' w me nv p f -> exists f', lasting k0 L cs' w me nv' p' f'.
Lemma same_member : forall cs' c, Forall2 same_but_cost cs cs' -> In c cs -> exists c', In c' cs' /\ same_but_cost c c'.
Proof. intros cs' c H. clear Hidx. induction H as [|x y l l' Hx H IH]; [intros []|]. intros [<-|Hc]; [exists y; split; [left; reflexivity|exact Hx]|]. destruct (IH Hc) as (c' & A & B). exists c'. split; [right; exact A|exact B]. Qed.
Lemma same_member' : forall cs' c', Forall2 same_but_cost cs cs' -> In c' cs' -> exists c, In c cs /\ same_but_cost c c'.
Proof. intros cs' c' H. clear Hidx. induction H as [|x y l l' Hx H IH]; [intros []|]. intros [<-|Hc]; [exists x; split; [left; reflexivity|exact Hx]|]. destruct (IH Hc) as (c & A & B). exists c. split; [right; exact A|exact B]. Qed.
Lemma same_indexed : forall cs', Forall2 same_but_cost cs cs' -> indexed cs'.
Proof.
  intros cs' H i c' N.
  assert (Q : forall l l', Forall2 same_but_cost l l' -> forall i c', nth_error l' i = Some c' -> exists c, nth_error l i = Some c /\ same_but_cost c c').
  { intros l l' F. induction F as [|x y l l' Hx F IH]; intros [|j] z Hz; try discriminate; [injection Hz as <-; exists x; split; [reflexivity|exact Hx]|exact (IH j z Hz)]. }
  destruct (Q _ _ H _ _ N) as (c & Nc & (_ & Eo & _)). rewrite Eo. exact (Hidx _ _ Nc).
Qed.
Lemma others_refl : forall nv p, others nv p nv p.
Proof. intros nv p L cs' w me f _ H. exists f. exact H. Qed.
Lemma others_trans : forall nv p nv1 p1 nv2 p2, others nv p nv1 p1 -> others nv1 p1 nv2 p2 -> others nv p nv2 p2.
Proof. intros nv p nv1 p1 nv2 p2 H1 H2 L cs' w me f S H. destruct (H1 L cs' w me f S H) as (f1 & X). exact (H2 L cs' w me f1 S X). Qed.
Lemma others_reify : forall nv p c a b as_ id p', In c cs -> (forall c l w, In c cs -> In (l, w) (obj_iter (co_obj c)) -> lvar l < nv) ->
  (forall x, In x (a :: b :: as_) -> lvar x < nv) ->
  (if pe_buf_empty (co_enc c) then exists ts, w_wf ts /\ outs_from (kof k0 p) (co_enc c) ts (co_cost c) (a :: b :: as_) /\ NoDup (map lvar (a :: b :: as_))
   else buf_from (kof k0 p) (co_enc c) (co_obj c) (co_cost c) (co_cost c) (a :: b :: as_)) ->
  certify_assump_reification (co_obj c) (co_enc c) (co_cost c) (mkLit nv false) (a :: b :: as_) p = Some (id, p') -> others nv p (S nv) p'.
Proof.
  intros nv p c a b as_ id p' Hc Hobj Has Hpre E L cs' w me f S H. destruct (same_member cs' c S Hc) as (c' & Hc' & (Ee & Eo & _)).
  rewrite <- Ee in Hpre, E. rewrite <- Eo in Hpre, E.
  apply (reify_others k0 L cs' w me nv p f c' (co_cost c) a b as_ id p' (same_indexed cs' S) H Hc'); [|exact Has|exact Hpre|exact E].
  intros x l u Hx Hl. destruct (same_member' cs' x S Hx) as (y & Hy & (_ & Ey & _)). rewrite Ey in Hl. exact (Hobj y l u Hy Hl).
Qed.

(** ** All objectives *)
Lemma bound_pre_mono : forall k k' nv c, (forall x, In x (k_all k) -> In x (k_all k')) -> bound_pre k nv c -> bound_pre k' (S nv) c.
Proof.
  intros k k' nv c M (H1 & H2 & H3 & H4). split; [intros l w H; pose proof (H1 l w H); lia|]. split; [exact H2|]. split; [exact H3|]. intros Hlt.
  destruct (H4 Hlt) as (as_ & E & Hv & H). exists as_. split; [exact E|]. split; [intros a Ha; pose proof (Hv a Ha); lia|].
  destruct as_ as [|a [|b as_]]; try exact H. destruct H as (X1 & X2 & X3). split; [exact X1|]. split; [exact X2|].
  destruct (pe_buf_empty (co_enc c)).
  - destruct X3 as (ts & Y1 & (Y2 & Y3) & Y4). exists ts. split; [exact Y1|]. split; [|exact Y4]. split; [exact (has_out_mono _ _ _ _ _ _ M Y2)|exact (outs_after_mono _ _ _ _ _ _ M Y3)].
  - exact (buf_from_mono _ _ _ _ _ _ _ M X3).
Qed.
Lemma block_clause_ok : forall xs nv p fw, incl (map fst xs) cs -> ready k0 cs witness max_enc nv p fw ->
  (forall c l w, In c cs -> In (l, w) (obj_iter (co_obj c)) -> lvar l < nv) ->
  (forall x, In x xs -> bound_pre (kof k0 p) nv (fst x) /\ (snd x = true -> co_cost (fst x) <= obj_lb (co_obj (fst x)))) ->
  exists cl ids nv' p' fw', block_clause (map as_bobj xs) nv p = Some (cl, ids, nv', p') /\ nv <= nv' /\
    ready k0 cs witness max_enc nv' p' fw' /\ incl fw fw' /\ kept p p' /\
    (forall i, In i ids -> exists C, In (i, C) (k_all (kof k0 p'))) /\
    (forall bl, In bl cl -> lvar bl < nv' /\ forall a, ax_all a fw' -> ax_true a (axiom bl) = false) /\
    (forall a, proof_holds a (kof k0 p) -> exists a', agree_old p nv a a' /\ proof_holds a' (kof k0 p')) /\
    (forall c, In c (map fst xs) -> cut_runs p' c) /\
    (forall q cl' ids', kept p' q -> incl cl cl' -> incl ids ids' -> forall c, In c (map fst xs) -> linked nv' q cl' ids' c) /\
    others nv p nv' p'.
Proof.
  induction xs as [|[c cst] xs IH]; intros nv p fw Hin R Hobj Hpre.
  - exists [], [], nv, p, fw. split; [reflexivity|]. split; [lia|]. split; [exact R|]. split; [intros l H; exact H|]. split; [apply kept_refl|].
    split; [intros i []|]. split; [intros bl []|]. split; [intros a Ha; exists a; split; [split; reflexivity|exact Ha]|]. split; [intros c []|]. split; [intros q cl' ids' _ _ _ c []|]. apply others_refl.
  - assert (Hc : In c cs) by (apply Hin; left; reflexivity).
    assert (Hin' : incl (map fst xs) cs) by (intros x Hx; apply Hin; right; exact Hx).
    assert (Hpre' : forall x, In x xs -> bound_pre (kof k0 p) nv (fst x) /\ (snd x = true -> co_cost (fst x) <= obj_lb (co_obj (fst x)))) by (intros x Hx; apply Hpre; right; exact Hx).
    destruct (Hpre (c, cst) (or_introl eq_refl)) as ((B1 & B2 & B3 & B4) & Hconst). cbn [fst snd] in B1, B2, B3, B4, Hconst.
    cbn [map block_clause as_bobj bo_enc bo_obj bo_const bo_cost fst snd]. rewrite B2.
    destruct (le_lt_dec (co_cost c) (obj_lb (co_obj c))) as [Hle|Hlt].
    + rewrite (proj2 (Nat.leb_le _ _) Hle). cbn [orb].
      destruct (IH nv p fw Hin' R Hobj Hpre') as (cl & ids & nv' & p' & fw' & X1 & X2 & X3 & X4 & X5 & X6 & X7 & X8 & X9 & X10 & X11).
      exists cl, ids, nv', p', fw'. do 8 (split; [assumption|]). split; [|split; [|exact X11]].
      * intros c' [<-|Hc']; [|exact (X9 c' Hc')]. intros q _. unfold cut_one. rewrite (proj2 (Nat.leb_le _ _) Hle).
        destruct (B3 Hle) as [->|Hr]; [cbn [Nat.eqb orb]; eexists; reflexivity|]. destruct (co_reform c); [|contradiction]. cbn [is_some]. rewrite orb_true_r. eexists. reflexivity.
      * intros q cl' ids' Q I1 I2 c' [<-|Hc']; [|exact (X10 q cl' ids' Q I1 I2 c' Hc')]. intros d q' E. unfold cut_one in E. rewrite (proj2 (Nat.leb_le _ _) Hle) in E.
        destruct ((co_cost c =? 0) || is_some (co_reform c)); [|discriminate]. injection E as <- <-. split; [reflexivity|discriminate].
    + rewrite (proj2 (Nat.leb_gt _ _) Hlt). cbn [orb]. destruct cst; [exfalso; specialize (Hconst eq_refl); lia|].
      destruct (B4 Hlt) as (as_ & -> & Hav & Has). destruct as_ as [|a [|b as_]].
      * destruct Has.
      * destruct (IH nv p fw Hin' R Hobj Hpre') as (cl & ids & nv' & p' & fw' & X1 & X2 & X3 & X4 & X5 & X6 & X7 & X8 & X9 & X10 & X11).
        exists (a :: cl), ids, nv', p', fw'. rewrite X1. split; [reflexivity|]. do 5 (split; [assumption|]). split; [|split; [exact X8|split; [|split; [|exact X11]]]].
        -- intros bl [<-|Hbl]; [|exact (X7 bl Hbl)]. split; [pose proof (Hav a (or_introl eq_refl)); lia|]. exact (cut_literal_false nv' p' fw' c a X3 Hc Hlt Has).
        -- intros c' [<-|Hc']; [exact (cut_literal_runs p' c a Hlt Has)|exact (X9 c' Hc')].
        -- intros q cl' ids' Q I1 I2 c' [<-|Hc'].
           ++ apply (cut_literal_linked nv' q c a cl' ids'); [pose proof (Hav a (or_introl eq_refl)); lia|exact Hlt|exact Has|]. apply I1. left. reflexivity.
           ++ apply (X10 q cl' ids' Q); [intros x Hx; apply I1; right; exact Hx|exact I2|exact Hc'].
      * destruct Has as (L1 & N1 & Hp).
        destruct (reify_ready nv p fw c a b as_ R Hc Hlt Hobj Hav L1 N1 Hp) as (id & p1 & fw1 & E & R1 & If1 & Ir & K1 & Hid & Hcons & Hrun & Hlink).
        rewrite E.
        destruct (IH (S nv) p1 fw1 Hin' R1) as (cl & ids & nv' & p' & fw' & X1 & X2 & X3 & X4 & X5 & X6 & X7 & X8 & X9 & X10 & X11).
        { intros c' l w Hc' Hl. pose proof (Hobj c' l w Hc' Hl). lia. }
        { intros x Hx. destruct (Hpre' x Hx) as (Y1 & Y2). split; [|exact Y2]. exact (bound_pre_mono _ _ _ _ (kp_all _ _ K1) Y1). }
        rewrite X1. exists (mkLit nv false :: cl), (id :: ids), nv', p', fw'. split; [reflexivity|]. split; [lia|]. split; [exact X3|].
        split; [intros l Hl; apply X4; apply If1; exact Hl|]. split; [exact (kept_trans _ _ _ K1 X5)|]. split; [|split; [|split; [|split; [|split]]]].
        -- intros i [<-|Hi]; [|exact (X6 i Hi)]. destruct Hid as (C & HC). exists C. exact (kp_all _ _ X5 _ HC).
        -- intros bl [<-|Hbl]; [|exact (X7 bl Hbl)]. cbn [lvar]. split; [lia|]. intros x Hx. pose proof (Hx _ (X4 _ Ir)) as T. unfold ax_true in *. cbn [axiom ax_var ax_neg lvar lneg] in *.
           destruct (x (PVs nv)); [discriminate|reflexivity].
        -- intros x Hx. destruct (Hcons x Hx) as (x1 & A1 & P1). destruct (X8 x1 P1) as (x2 & (A2 & A3) & P2). exists x2. split; [|exact P2]. split.
           ++ intros v Hv. rewrite A2 by lia. apply A1; [intros Y; injection Y; lia|discriminate].
           ++ intros n Hn. pose proof (rd_wok _ _ _ _ _ _ _ R1). rewrite A3.
              ** apply A1; [discriminate|]. intros m Y. injection Y as <-. exact Hn.
              ** pose proof (kp_nextvar _ _ K1). lia.
        -- intros c' [<-|Hc']; [exact (cut_runs_more _ _ _ X5 Hrun)|exact (X9 c' Hc')].
        -- intros q cl' ids' Q I1 I2 c' [<-|Hc'].
           ++ apply (Hlink nv' q cl' ids'); [lia|exact (kept_trans _ _ _ X5 Q)|apply I1; left; reflexivity|apply I2; left; reflexivity].
           ++ apply (X10 q cl' ids' Q); [intros x Hx; apply I1; right; exact Hx|intros x Hx; apply I2; right; exact Hx|exact Hc'].
        -- exact (others_trans _ _ _ _ _ _ (others_reify nv p c a b as_ id p1 Hc Hobj Hav Hp E) X11).
Qed.
(** lines that add consequences for the solutions at hand *)
(** ** The clause and the cut *)
Lemma cut_data_linked : forall nv ds p cl ids, (forall c, In c ds -> cut_runs p c) -> (forall c, In c ds -> linked nv p cl ids c) ->
  exists xs, cut_data ds p = Some (xs, p) /\ forall l, In l (cut_lits xs) -> link (kof k0 p) nv cl ids l.
Proof.
  intros nv. induction ds as [|c ds IH]; intros p cl ids Hr Hl.
  - exists []. split; [reflexivity|intros l []].
  - destruct (Hr c (or_introl eq_refl) p (fun _ _ H => H)) as (d & E). destruct (Hl c (or_introl eq_refl) d p E) as (_ & L).
    destruct (IH p cl ids) as (xs & E2 & L2); [intros x Hx; apply Hr; right; exact Hx|intros x Hx; apply Hl; right; exact Hx|].
    exists (d :: xs). cbn [cut_data]. rewrite E, E2. split; [reflexivity|]. intros l H. unfold cut_lits in H. cbn [filter_map] in H. destruct (fst d) as [y|] eqn:Ey.
    + destruct H as [<-|H]; [exact (L y eq_refl)|exact (L2 l H)].
    + exact (L2 l H).
Qed.
Lemma Forall2_both : forall {A B} (R : A -> B -> Prop) l l' x, Forall2 R l l' -> In x l -> exists y, In y l' /\ R x y.
Proof. intros A B R l l' x H. induction H as [|a b l l' Ha H IH]; [intros []|]. intros [<-|Hx]; [exists b; split; [left; reflexivity|exact Ha]|]. destruct (IH Hx) as (y & Y1 & Y2). exists y. split; [right; exact Y1|exact Y2]. Qed.
Lemma clause_pb_vars : forall (c : clause) v, In (PVs v) (cvars (clause_pb c)) -> In v (map lvar c).
Proof.
  intros c v H. unfold clause_pb in H. apply lb_clause_vars in H. rewrite map_map in H. apply in_map_iff in H. destruct H as (l & E & Hl). cbn in E. injection E as <-. apply in_map. exact Hl.
Qed.
Lemma up_to_sub : forall (ds : list pconstr) r full, up_to ds r full -> forall a, (forall c, In c ds -> lb_holds a c) -> ax_all a r -> ax_all a full.
Proof.
  intros ds r full U. induction U as [r full E|r full c l Hc Hp U IH]; intros a Hd Ha.
  - intros l Hl. apply Ha. apply E. exact Hl.
  - apply IH; [exact Hd|]. intros y [<-|Hy]; [exact (Hp a Ha (Hd c Hc))|exact (Ha y Hy)].
Qed.

Theorem block_ok : forall xs nv p fw, map fst xs = cs -> ready k0 cs witness max_enc nv p fw ->
  (forall x, In x xs -> bound_pre (kof k0 p) nv (fst x) /\ (snd x = true -> co_cost (fst x) <= obj_lb (co_obj (fst x)))) ->
  (forall c, In c cs -> co_cost c <= obj_lb (co_obj c) -> co_reform c <> None -> obj_unit_weight (co_obj c) = 1) ->
  exists cl nv' p', block_candidate (map as_bobj xs) cs witness max_enc nv p = Some (cl, nv', p') /\ nv <= nv' /\
    wok k0 p' /\ bounds_ok k0 (map co_obj cs) p' /\ vmap_ok p' /\ new_from k0 p' nv' /\
    (forall e, In e (k_all (kof k0 p)) -> In e (k_all (kof k0 p'))) /\
    k_order (kof k0 p') = k_order (kof k0 p) /\
    k_excl (kof k0 p') = map axiom (sol_lits (truncate witness max_enc)) :: k_excl (kof k0 p) /\
    (exists new id, ps_reg p' = ps_reg p ++ new ++ [(cl, id)] /\ forall c i, In (c, i) (new ++ [(cl, id)]) -> In (i, clause_pb c) (k_all (kof k0 p'))) /\
    (forall a, proof_holds a (kof k0 p') -> ~ ax_all a (map axiom (sol_lits (truncate witness max_enc)))) /\
    (forall a, proof_holds a (kof k0 p) -> (exists c, In c cs /\ icost (co_obj c) (on_solver a) < co_cost c) ->
       exists a', agree_old p nv a a' /\ proof_holds a' (kof k0 p')) /\
    (exists ss, ps_log p' = ps_log p ++ ss) /\ ps_next p < ps_next p' /\
    (forall key l d1 d2, bound_get (ps_bounds p') key = Some (l, d1, d2) ->
       S d1 < ps_next p' /\ S d2 < ps_next p' /\ (bound_get (ps_bounds p) key = Some (l, d1, d2) \/ (ps_next p <= d1 /\ ps_next p <= d2))) /\
    (forall e, In e (k_core (kof k0 p')) -> S (fst e) < ps_next p' /\ (In e (k_core (kof k0 p)) \/ ps_next p <= fst e)) /\
    forall L cs' w me f, Forall2 same_but_cost cs cs' -> lasting k0 L cs' w me nv p f ->
      Exists (fun cc => co_cost (snd cc) < co_cost (fst cc)) (combine cs cs') -> exists f', lasting k0 (pred (ps_next p') :: L) cs' w me nv' p' f'.
Proof.
  intros xs nv p fw Exs R Hpre Huw.
  assert (Hobj : forall c l w, In c cs -> In (l, w) (obj_iter (co_obj c)) -> lvar l < nv).
  { intros c l w Hc Hl. rewrite <- Exs in Hc. apply in_map_iff in Hc. destruct Hc as (x & <- & Hx). destruct (Hpre x Hx) as ((H & _) & _). exact (H l w Hl). }
  destruct (block_clause_ok xs nv p fw) as (cl & ids & nv' & p1 & fw' & X1 & X2 & X3 & X4 & X5 & X6 & X7 & X8 & X9 & X10 & X11); try assumption.
  { rewrite Exs. intros c Hc. exact Hc. }
  rewrite Exs in X9, X10.
  destruct (cut_data_linked nv' cs p1 cl ids X9 (fun c Hc => X10 p1 cl ids (kept_refl _) (fun _ H => H) (fun _ H => H) c Hc)) as (ds & Ed & Lk).
  pose proof X3 as [R1 R2 R3 R4 R5 R6 R7 R8 R9 R10 R11 R12].
  unfold block_candidate. rewrite X1.
  destruct (certify_pmin_cut cs witness max_enc p1) as [[cut_id p2]|] eqn:Ec.
  2:{ exfalso. unfold certify_pmin_cut in Ec. rewrite Ed, R7 in Ec. unfold wr_id in Ec. discriminate. }
  destruct (certify_cut_full k0 cs witness max_enc p1 fw' cut_id p2 R1 Hidx R2 R3 R4 R6 Huw R7 R9) as (W2 & B2 & V2 & O2 & E2 & M2 & G2 & cut & (ds' & p1' & Ed' & Ecut & Hall) & Icut & _ & Hbetter); try assumption.
  rewrite Ed in Ed'. injection Ed' as <- <-. subst cut.
  assert (Icut' : In (cut_id, lb_clause (cut_lits ds)) (k_all (kof k0 p2))) by (apply in_k_all; left; exact Icut).
  assert (Hids : exists Cs, Forall2 (fun i c => In (i, c) (k_all (kof k0 p2))) ids Cs).
  { clear - X6 M2. induction ids as [|i ids IH]; [exists []; constructor|]. destruct (X6 i (or_introl eq_refl)) as (C & HC).
    destruct IH as (Cs & H); [intros j Hj; apply X6; right; exact Hj|]. exists (C :: Cs). constructor; [exact (M2 _ HC)|exact H]. }
  destruct Hids as (Cs & Hids).
  assert (Hhints : Forall2 (fun i c => In (i, c) (k_all (kof k0 p2))) (ids ++ [cut_id]) (Cs ++ [lb_clause (cut_lits ds)])).
  { apply Forall2_app; [exact Hids|]. constructor; [exact Icut'|constructor]. }
  assert (Hlinks : forall a l, In l (cut_lits ds) -> (forall c, In c Cs -> lb_holds a c) -> ax_true a l = true -> exists bl, In bl cl /\ ax_true a (axiom bl) = true).
  { intros a l Hl Hcs T. destruct (Lk l Hl) as (_ & bl & Hbl & [->|(id & C & Hid & HC & Him)]); [exists bl; split; assumption|]. exists bl. split; [exact Hbl|].
    apply Him; [|exact T]. apply Hcs. destruct (Forall2_both _ _ _ _ Hids Hid) as (C' & HC' & Hin).
    destruct (wk_ids _ _ W2) as (U & _). rewrite (U id C C' (M2 _ HC) Hin). exact HC'. }
  assert (Hrup : rup (Cs ++ [lb_clause (cut_lits ds)]) (lb_clause (map axiom cl))).
  { apply (rup_two _ _ (map ax_not (cut_lits ds))).
    - intros m Hm. apply in_map_iff in Hm. destruct Hm as (l & <- & Hl). destruct (Lk l Hl) as (_ & bl & Hbl & [->|(id & C & Hid & HC & Him)]).
      + exists (lb_clause (cut_lits ds)). split; [apply in_or_app; right; left; reflexivity|]. intros a Ha _. rewrite ax_not_true, (Ha (axiom bl)); [reflexivity|]. apply in_map. exact Hbl.
      + destruct (Forall2_both _ _ _ _ Hids Hid) as (C' & HC' & Hin). destruct (wk_ids _ _ W2) as (U & _). rewrite <- (U id C C' (M2 _ HC) Hin) in HC'.
        exists C. split; [apply in_or_app; left; exact HC'|]. intros a Ha Hh. rewrite ax_not_true. destruct (ax_true a l) eqn:T; [|reflexivity].
        exfalso. specialize (Him a Hh T). rewrite (Ha (axiom bl)) in Him; [discriminate|]. apply in_map. exact Hbl.
    - exists (lb_clause (cut_lits ds)). split; [apply in_or_app; right; left; reflexivity|]. intros a _ Hm Hh. rewrite lb_clause_holds in Hh. destruct Hh as (l & Hl & T).
      pose proof (Hm (ax_not l) (in_map ax_not _ _ Hl)) as X. rewrite ax_not_true, T in X. discriminate. }
  destruct (frame_rup k0 p2 p2 (clause_pb cl) (ids ++ [cut_id]) _ (frame_refl k0 p2 W2) Hhints Hrup) as (F & Icl & M3).
  { intros n Hn. exfalso. exact (clause_vars cl n Hn). }
  cbv zeta. set (p3 := snd (wr_id (SRup (clause_pb cl) (map CAbs (ids ++ [cut_id]))) p2)) in *.
  change (wr_id (SRup (clause_pb cl) (map CAbs (ids ++ [cut_id]))) p2) with (ps_next p2, p3). cbv iota beta.
  exists cl, nv', (add_cert cl (ps_next p2) p3). split; [reflexivity|]. split; [exact X2|].
  assert (K3 : kof k0 (add_cert cl (ps_next p2) p3) = kof k0 p3) by reflexivity.
  assert (Hfrom : forall e, In e (k_all (kof k0 p3)) <-> e = (ps_next p2, clause_pb cl) \/ e = (cut_id, lb_clause (cut_lits ds)) \/ In e (k_all (kof k0 p1))).
  { intros e. unfold p3. rewrite kof_wr_id. cbn [step_next]. rewrite in_add_der, (wk_next _ _ W2), Hall. tauto. }
  assert (Hwok : wok k0 (add_cert cl (ps_next p2) p3)) by (pose proof (fr_wok _ _ _ F) as [w1 w2 w3 w4]; constructor; assumption).
  assert (Hbnd : bounds_ok k0 (map co_obj cs) (add_cert cl (ps_next p2) p3)).
  { apply (bounds_mono k0 _ p2 _ B2); [reflexivity|rewrite K3; exact M3|intros x Hx; exact Hx]. }
  assert (Hp12 : exists ss, ps_log p2 = ps_log p1 ++ ss /\ ps_vmap p2 = ps_vmap p1 /\ ps_bounds p2 = ps_bounds p1 /\ ps_nextvar p2 = ps_nextvar p1 /\ ps_next p1 <= ps_next p2 /\
    forall e, In e (k_core (kof k0 p2)) -> In e (k_core (kof k0 p1)) \/ ps_next p1 <= fst e).
  { pose proof Ec as Ec'. unfold certify_pmin_cut in Ec'. rewrite Ed, R7 in Ec'. unfold wr_id, wr in Ec'. cbn [ps_next ps_nextvar ps_log ps_vmap ps_bounds ps_reg] in Ec'. injection Ec' as _ <-.
    cbn [ps_next ps_nextvar ps_log ps_vmap ps_bounds ps_reg]. rewrite <- !app_assoc. eexists. split; [reflexivity|]. repeat (split; [reflexivity|]). split; [lia|].
    intros e He. unfold kof in He. cbn [ps_log] in He. rewrite steps_next_app in He. fold (kof k0 p1) in He. cbn [steps_next step_next k_core k_der k_next add_der] in He.
    apply rm_ids_in in He. apply in_app_or in He. destruct He as [He|[<-|He]].
    - right. unfold pick_ids in He. apply filter_In in He. destruct He as (_ & He). cbn [map cid_abs existsb] in He. rewrite orb_false_r in He. apply Nat.eqb_eq in He. lia.
    - right. cbn [fst]. cbn [step_next add_der k_next]. rewrite (wk_next _ _ R2). lia.
    - left. exact He. }
  destruct Hp12 as (ss12 & Elog & Evm & Ebd & Env & Enx & Eco).
  assert (Hnew : new_from k0 (add_cert cl (ps_next p2) p3) nv').
  { intros r Hr. destruct (R5 r Hr) as (U1 & U2). split; [exact U1|]. intros X. apply U2.
    assert (Y : In (PVs r) (flat_map step_vars (ps_log p2))).
    { change (ps_log (add_cert cl (ps_next p2) p3)) with (ps_log p2 ++ [SRup (clause_pb cl) (map CAbs (ids ++ [cut_id]))]) in X.
      rewrite flat_map_app in X. apply in_app_or in X. destruct X as [X|X]; [exact X|]. exfalso. cbn [flat_map step_vars] in X. rewrite app_nil_r in X.
      apply clause_pb_vars in X. apply in_map_iff in X. destruct X as (l & <- & Hl). destruct (X7 l Hl) as (X & _). lia. }
    assert (Hfwv : forall l, In l fw' -> ax_var l <> PVs r) by (intros l Hl E; pose proof (R8 l r Hl E); lia).
    assert (Hcv : forall l, In l (cut_lits ds) -> ax_var l <> PVs r) by (intros l Hl E; destruct (Lk l Hl) as (Z & _); pose proof (Z r E); lia).
    unfold certify_pmin_cut in Ec. rewrite Ed, R7 in Ec. unfold wr_id, wr in Ec. cbn [ps_next ps_nextvar ps_log ps_vmap ps_bounds ps_reg] in Ec. injection Ec as _ <-.
    cbn [ps_log] in Y. rewrite !flat_map_app in Y. rewrite !in_app_iff in Y. cbn [flat_map step_vars In] in Y. rewrite !app_nil_r in Y.
    destruct Y as [[[[[Y|Y]|Y]|Y]|Y]|Y]; [exact Y| | | |destruct Y|destruct Y]; exfalso.
    - unfold cvars, map_dom_constr in Y. cbn [lb_terms] in Y. rewrite map_app, !map_map in Y. cbn [snd] in Y. apply in_app_or in Y.
      destruct Y as [Y|Y]; apply in_map_iff in Y; destruct Y as (l & E & Hl); [exact (Hfwv l Hl E)|exact (Hcv l Hl E)].
    - apply in_map_iff in Y. destruct Y as (l & E & Hl). exact (Hfwv l Hl E).
    - apply lb_clause_vars in Y. apply in_map_iff in Y. destruct Y as (l & E & Hl). exact (Hcv l Hl E). }
  split; [exact Hwok|]. split; [exact Hbnd|]. split; [exact V2|]. split; [exact Hnew|].
  rewrite K3. split; [intros e He; apply M3; apply M2; exact (kp_all _ _ X5 e He)|].
  split; [rewrite (fr_order _ _ _ F), O2; exact (kp_order _ _ X5)|].
  split; [rewrite (fr_excl _ _ _ F), E2, (kp_excl _ _ X5); reflexivity|]. split.
  { destruct (kp_reg _ _ X5) as (new & Er & Hn). exists new, (ps_next p2). split.
    - change (ps_reg (add_cert cl (ps_next p2) p3)) with (ps_reg p2 ++ [(cl, ps_next p2)]). rewrite G2, Er, app_assoc. reflexivity.
    - intros c i H. apply in_app_or in H. destruct H as [H|[H|[]]]; [apply M3; apply M2; exact (Hn c i H)|]. injection H as <- <-. exact Icl. }
  split; [|split; [|split; [|split; [|split; [|split]]]]].
  - intros a Ha Hw.
    assert (Hp1 : proof_holds a (kof k0 p1)) by (intros e He; apply Ha; apply Hfrom; right; right; exact He).
    pose proof (up_to_sub _ _ _ R12 a) as Hf. specialize (Hf (fun c Hc => match proj1 (in_map_iff _ _ _) Hc with ex_intro _ e (conj E He) => eq_ind _ (fun c => lb_holds a c) (Hp1 e He) _ E end) Hw).
    pose proof (Ha _ Icl) as Hcl. cbn [snd] in Hcl. unfold clause_pb in Hcl. rewrite lb_clause_holds in Hcl. destruct Hcl as (l & Hl & T).
    apply in_map_iff in Hl. destruct Hl as (bl & <- & Hbl). destruct (X7 bl Hbl) as (_ & Z). rewrite (Z a Hf) in T. discriminate.
  - intros a Ha (c & Hc & Hlt). destruct (X8 a Ha) as (a' & Ag & Ha'). exists a'. split; [exact Ag|].
    assert (Hco : icost (co_obj c) (on_solver a') = icost (co_obj c) (on_solver a)).
    { unfold icost. apply wsum_ext. intros [l w] Hl. unfold lit_true, on_solver. destruct Ag as (Ag & _). cbn [fst]. rewrite Ag; [reflexivity|]. exact (Hobj c l w Hc Hl). }
    assert (Hcut : lb_holds a' (lb_clause (cut_lits ds))).
    { apply Hbetter; [|exists c; split; [exact Hc|rewrite Hco; exact Hlt]]. intros e He Hne. apply Hall in He. destruct He as [->|He]; [contradiction Hne; reflexivity|exact (Ha' e He)]. }
    assert (Hp2 : proof_holds a' (kof k0 p2)) by (intros e He; apply Hall in He; destruct He as [->|He]; [exact Hcut|exact (Ha' e He)]).
    exact (fr_sound _ _ _ F a' Hp2).
  - destruct (kp_log _ _ X5) as (s1 & E1). change (ps_log (add_cert cl (ps_next p2) p3)) with (ps_log p2 ++ [SRup (clause_pb cl) (map CAbs (ids ++ [cut_id]))]).
    rewrite Elog, E1, <- !app_assoc. eexists. reflexivity.
  - change (ps_next (add_cert cl (ps_next p2) p3)) with (S (ps_next p2)). pose proof (kp_next _ _ X5). lia.
  - intros key l d1 d2 G. change (ps_bounds (add_cert cl (ps_next p2) p3)) with (ps_bounds p2) in G. destruct key as [i v]. destruct (B2 _ _ _ _ _ G) as (o & n & _ & _ & _ & I1 & I2 & _).
    apply (proj2 (wk_ids _ _ W2)) in I1. apply (proj2 (wk_ids _ _ W2)) in I2. rewrite (wk_next _ _ W2) in I1, I2. cbn [fst] in I1, I2.
    change (ps_next (add_cert cl (ps_next p2) p3)) with (S (ps_next p2)). split; [lia|]. split; [lia|]. rewrite Ebd in G. exact (kp_newb _ _ X5 _ _ _ _ G).
  - intros e He. rewrite (fr_core _ _ _ F) in He. split.
    { assert (I : In e (k_all (kof k0 p2))) by (apply in_k_all; left; exact He). apply (proj2 (wk_ids _ _ W2)) in I. rewrite (wk_next _ _ W2) in I.
      change (ps_next (add_cert cl (ps_next p2) p3)) with (S (ps_next p2)). lia. }
    destruct (Eco e He) as [X|X]; [left; rewrite <- (kp_core _ _ X5); exact X|right; pose proof (kp_next _ _ X5); lia].
  - intros L cs' w me f S H Hex. destruct (X11 L cs' w me f S H) as (f' & H'). exists f'.
    assert (Eobjs : map co_obj cs' = map co_obj cs) by (clear - S; induction S as [|x y l l' (_ & Ho & _) S IH]; [reflexivity|cbn [map]; rewrite Ho, IH; reflexivity]).
    change (pred (ps_next (add_cert cl (ps_next p2) p3))) with (ps_next p2).
    pose proof H' as [_ HL HB _ _].
    apply (lasting_gen k0 L (ps_next p2 :: L) cs' w me nv' nv' p1 (add_cert cl (ps_next p2) p3) f' H'); try assumption.
    + rewrite Eobjs. exact Hbnd.
    + lia.
    + rewrite K3, (fr_order _ _ _ F), O2. reflexivity.
    + intros e He. rewrite rm_in in *. destruct He as (He & Hd). split; [rewrite K3; apply M3; apply M2; exact He|]. intros [E|X]; [|exact (Hd X)].
      apply (proj2 (wk_ids _ _ R2)) in He. rewrite (wk_next _ _ R2) in He. lia.
    + intros i Hi. change (ps_next (add_cert cl (ps_next p2) p3)) with (Datatypes.S (ps_next p2)). destruct Hi as [<-|Hi]; [lia|]. pose proof (HL i Hi). lia.
    + intros key l d1 d2 G. change (ps_bounds (add_cert cl (ps_next p2) p3)) with (ps_bounds p2) in G. pose proof G as G'. destruct key as [i v]. destruct (B2 _ _ _ _ _ G) as (o & n & _ & _ & _ & I1 & I2 & _).
      apply (proj2 (wk_ids _ _ W2)) in I1. apply (proj2 (wk_ids _ _ W2)) in I2. rewrite (wk_next _ _ W2) in I1, I2. cbn [fst] in I1, I2.
      rewrite Ebd in G'. destruct (HB _ _ _ _ G') as (N1 & N2). cbn [In]. split; intros [X|X]; [lia|exact (N1 X)|lia|exact (N2 X)].
    + intros a Ha _. rewrite K3. destruct (rd_sat _ _ _ _ _ _ _ (la_ready _ _ _ _ _ _ _ _ H') a Ha) as (Hp & Hco).
      assert (Hlt : exists c, In c cs /\ icost (co_obj c) (on_solver a) < co_cost c).
      { clear - S Hex Hco. induction S as [|x y l l' (_ & Ho & _) S IH]; [inversion Hex|]. cbn [combine] in Hex. inversion Hex as [z l0 Hz|z l0 Hz]; subst.
        - exists x. split; [left; reflexivity|]. cbn [fst snd] in Hz. rewrite <- Ho. rewrite (Hco y (or_introl eq_refl)). exact Hz.
        - destruct (IH Hz) as (c & Hc & L); [intros c Hc; apply Hco; right; exact Hc|]. exists c. split; [right; exact Hc|exact L]. }
      assert (Hcut : lb_holds a (lb_clause (cut_lits ds))).
      { apply Hbetter; [|exact Hlt]. intros e He Hne. apply Hall in He. destruct He as [->|He]; [contradiction Hne; reflexivity|exact (Hp e He)]. }
      assert (Hp2 : proof_holds a (kof k0 p2)) by (intros e He; apply Hall in He; destruct He as [->|He]; [exact Hcut|exact (Hp e He)]).
      exact (fr_sound _ _ _ F a Hp2).
Qed.
End Candidate.
