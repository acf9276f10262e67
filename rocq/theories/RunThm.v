(** * The proof of a whole run *)
From Coq Require Import List Arith ZArith Lia Bool.
From Verif Require Import Spec ApiSpec Base BaseLemmas Sem Ext Blk ApiTop MTypes MPMinimal MPrepro ReindexThm VeriPB VeriThm MProofs ProofThm ProofRun ProofCut MTracer TracerThm ReformSpec ReformThm ReformRun MProofAlg ReifSpec ReifThm ReifRun ProofCert ProofFin LinsuCert BlockSpec BlockThm RunSpec.
Import ListNotations.
Local Open Scope nat_scope.

(** ** Solutions *)
Lemma total_trunc : forall n b, total_to n b -> truncate b n = b.
Proof. intros n b (L & _). unfold truncate. apply firstn_all2. lia. Qed.
Lemma total_value : forall n b v, total_to n b -> v <= n -> var_value b v = Some (asg_of b v).
Proof.
  intros n b v (L & T) Hv. unfold asg_of, var_value. destruct (nth_error b v) as [t|] eqn:E; [|apply nth_error_None in E; lia].
  destruct t as [x|]; [destruct x; reflexivity|]. exfalso. exact (T None (nth_error_In _ _ E) eq_refl).
Qed.
Lemma total_lit : forall n b v, total_to n b -> v <= n -> In (mkLit v (negb (asg_of b v))) (sol_lits b).
Proof.
  intros n b v T Hv. apply sol_value. unfold lit_value. cbn [lvar lneg]. rewrite (total_value n b v T Hv). destruct (asg_of b v); reflexivity.
Qed.
Lemma up_to_incl : forall {V} (ds : list (lbc V)) r full, up_to ds r full -> incl r full.
Proof.
  intros V ds r full U. induction U as [r full E|r full c l Hc Hp U IH]; [intros l Hl; apply E; exact Hl|]. intros x Hx. apply IH. right. exact Hx.
Qed.
Lemma for_sol_enc : forall cs b, map co_enc (for_sol cs b) = map co_enc cs.
Proof. intros cs b. unfold for_sol. rewrite map_map. reflexivity. Qed.
Lemma for_sol_obj : forall cs b, map co_obj (for_sol cs b) = map co_obj cs.
Proof. intros cs b. unfold for_sol. rewrite map_map. reflexivity. Qed.
Lemma for_sol_cost : forall cs b, map co_cost (for_sol cs b) = map (fun o => icost o (asg_of b)) (map co_obj cs).
Proof. intros cs b. unfold for_sol. rewrite !map_map. reflexivity. Qed.
Lemma for_sol_in : forall cs b c, In c (for_sol cs b) <-> exists c0, In c0 cs /\ c = mkCobj (co_enc c0) (co_obj c0) (co_reform c0) (icost (co_obj c0) (asg_of b)).
Proof. intros cs b c. unfold for_sol. rewrite in_map_iff. split; intros (x & A & B); exists x; auto. Qed.
Lemma for_sol_ok : forall es cs b, Forall (cobj_ok es) cs <-> Forall (cobj_ok es) (for_sol cs b).
Proof.
  intros es cs b. unfold for_sol. rewrite Forall_map. rewrite !Forall_forall. split; intros H c Hc; destruct (H c Hc) as (rs & [A1 A2 A3 A4 A5]); exists rs; constructor; assumption.
Qed.
Lemma for_sol_same : forall cs b b', Forall2 same_but_cost (for_sol cs b) (for_sol cs b').
Proof. intros cs b b'. unfold for_sol. induction cs as [|c cs IH]; cbn [map]; [constructor|]. constructor; [split; [|split]; reflexivity|exact IH]. Qed.
Lemma for_sol_better : forall cs b b', better cs b' b -> Exists (fun cc => co_cost (snd cc) < co_cost (fst cc)) (combine (for_sol cs b) (for_sol cs b')).
Proof.
  intros cs b b' (c & Hc & L). induction cs as [|x cs IH]; [destruct Hc|]. cbn [for_sol map combine]. destruct Hc as [->|Hc]; [left; exact L|right; exact (IH Hc)].
Qed.
Lemma for_sol_idx : forall cs b, indexed cs -> indexed (for_sol cs b).
Proof.
  intros cs b H i c N. unfold for_sol in N. rewrite nth_error_map in N. destruct (nth_error cs i) as [c0|] eqn:E; [|discriminate]. injection N as <-. exact (H i c0 E).
Qed.
(** the extended solution fixes the variables of the instance *)
Lemma lasting_vals : forall k0 L cs n b nv p fw a x, lasting k0 L cs b n nv p fw -> total_to n b -> ax_all a fw -> x <= n -> a (PVs x) = asg_of b x.
Proof.
  intros k0 L cs n b nv p fw a x H T Ha Hx. pose proof (up_to_incl _ _ _ (la_up _ _ _ _ _ _ _ _ H)) as I. rewrite (total_trunc n b T) in I.
  pose proof (Ha _ (I _ (in_map axiom _ _ (total_lit n b x T Hx)))) as E. unfold ax_true in E. cbn [axiom ax_var ax_neg lvar lneg] in E.
  destruct (asg_of b x), (a (PVs x)); cbn in E; congruence.
Qed.

Lemma outs_mean_mono : forall es fs c, (forall e, In e es -> In e fs) -> outs_mean es c -> outs_mean fs c.
Proof. intros es fs c H X a Ha. apply X. intros e He. exact (Ha e (H e He)). Qed.
Lemma enc_fine_mono : forall es fs cs, (forall e, In e es -> In e fs) -> enc_fine es cs -> enc_fine fs cs.
Proof.
  intros es fs cs H (A & B). split; [eapply Forall_impl; [|exact A]; intros c; apply cobj_ok_mono; exact H|]. intros c Hc. exact (outs_mean_mono es fs c H (B c Hc)).
Qed.

(** ** Extending the assignments of the encodings *)
Lemma value_fix_assigned : forall costs vm f q g pvs x, value_fix costs vm (f, q) = Some (g, pvs) -> var_value f x <> None -> var_value g x <> None.
Proof.
  intros costs vm. induction vm as [|[this v] vm IH]; intros f q g pvs x E H; cbn [value_fix] in E; [injection E as <- _; exact H|].
  assert (Q : forall bb f' q', assign_ax this bb (f, q) = (f', q') -> var_value f' x <> None).
  { intros bb f' q' X. unfold assign_ax in X. destruct (ax_var (if bb then this else ax_not this)) as [r|r]; cbn [fst snd] in X; injection X as <- _; [|exact H].
    unfold assign_lit. rewrite assign_at_value. destruct (Nat.eqb x (lvar _)); [discriminate|exact H]. }
  destruct v as [that|i v].
  - cbn [fst] in E. destruct (lit_value f that) as [bb|]; [|discriminate]. destruct (assign_ax this bb (f, q)) as [f' q'] eqn:Ea. exact (IH _ _ _ _ x E (Q bb f' q' Ea)).
  - destruct (nth_error costs i) as [c|]; [|discriminate]. destruct (assign_ax this (v <=? c) (f, q)) as [f' q'] eqn:Ea. exact (IH _ _ _ _ x E (Q _ f' q' Ea)).
Qed.
(** one more value *)
Definition with_value (q : option (nat * bool)) (f : assignment) (x : nat) : tern :=
  match q with Some (r, y) => if x =? r then Some y else var_value f x | None => var_value f x end.
Definition below_new (q : option (nat * bool)) (f : assignment) : Prop :=
  match q with Some (r, _) => forall x, var_value f x <> None -> x < r | None => True end.
Lemma value_fix_ext : forall q costs vm f f' pv0 g pvs, value_fix costs vm (f, pv0) = Some (g, pvs) -> below_new q g ->
  (forall x, var_value f' x = with_value q f x) ->
  exists g', value_fix costs vm (f', pv0) = Some (g', pvs) /\ forall x, var_value g' x = with_value q g x.
Proof.
  intros q costs vm. induction vm as [|[this v] vm IH]; intros f f' pv0 g pvs E Hb H; cbn [value_fix] in *.
  - injection E as <- <-. exists f'. split; [reflexivity|exact H].
  - assert (Q : forall bb f1 q1, assign_ax this bb (f, pv0) = (f1, q1) -> value_fix costs vm (f1, q1) = Some (g, pvs) ->
      exists g', value_fix costs vm (assign_ax this bb (f', pv0)) = Some (g', pvs) /\ forall x, var_value g' x = with_value q g x).
    { intros bb f1 q1 X Y. unfold assign_ax in *. destruct (ax_var (if bb then this else ax_not this)) as [r|r]; cbn [fst snd] in *; injection X as <- <-.
      - apply (IH _ _ _ _ _ Y Hb). intros x. unfold assign_lit. cbn [lvar lneg]. rewrite !assign_at_value. destruct (Nat.eqb_spec x r) as [->|Hx].
        + unfold with_value. rewrite assign_at_value, Nat.eqb_refl. destruct q as [[r' y]|]; [|reflexivity]. destruct (Nat.eqb_spec r r') as [->|Hr]; [|reflexivity].
          exfalso. cbn [below_new] in Hb. assert (r' < r'); [|lia]. apply Hb. apply (value_fix_assigned _ _ _ _ _ _ r' Y). unfold assign_lit. cbn [lvar]. rewrite assign_at_value, Nat.eqb_refl. discriminate.
        + rewrite H. unfold with_value. rewrite assign_at_value, (proj2 (Nat.eqb_neq x r) Hx). reflexivity.
      - apply (IH _ _ _ _ _ Y Hb). exact H. }
    destruct v as [that|i v].
    + cbn [fst] in *. destruct (lit_value f that) as [bb|] eqn:El; [|discriminate].
      assert (El' : lit_value f' that = Some bb).
      { unfold lit_value in *. rewrite H. destruct (var_value f (lvar that)) as [y|] eqn:Ev; [|discriminate]. unfold with_value. destruct q as [[r z]|]; [|rewrite Ev; exact El].
        destruct (Nat.eqb_spec (lvar that) r) as [Er|Hr]; [|rewrite Ev; exact El]. exfalso. cbn [below_new] in Hb. assert (lvar that < r); [|lia]. apply Hb.
        destruct (assign_ax this bb (f, pv0)) as [f1 q1] eqn:Ea. apply (value_fix_assigned costs ((this, VIdentical that) :: vm) f pv0 g pvs); [|congruence].
        cbn [value_fix fst]. unfold lit_value. rewrite Ev. injection El as <-. rewrite Ea. exact E. }
      rewrite El'. destruct (assign_ax this bb (f, pv0)) as [f1 q1] eqn:Ea. exact (Q bb f1 q1 Ea E).
    + destruct (nth_error costs i) as [c|]; [|discriminate]. destruct (assign_ax this (v <=? c) (f, pv0)) as [f1 q1] eqn:Ea. exact (Q _ f1 q1 Ea E).
Qed.
Lemma sol_lits_with : forall q f g, below_new q f -> (forall x, var_value g x = with_value q f x) ->
  forall l, In l (sol_lits g) <-> In l (sol_lits f) \/ match q with Some (r, y) => l = mkLit r (negb y) | None => False end.
Proof.
  intros q f g Hb H [v s]. rewrite !sol_value. unfold lit_value. cbn [lvar lneg]. rewrite H. unfold with_value. destruct q as [[r y]|]; [|tauto].
  destruct (Nat.eqb_spec v r) as [->|Hv].
  - assert (E : var_value f r = None).
    { destruct (var_value f r) eqn:E; [|reflexivity]. exfalso. assert (r < r); [|lia]. apply Hb. congruence. }
    rewrite E. split.
    + intros X. right. injection X as X. f_equal. destruct s, y; cbn in *; congruence.
    + intros [X|X]; [discriminate|]. injection X as ->. destruct y; reflexivity.
  - split; [tauto|]. intros [X|X]; [exact X|]. injection X as -> _. contradiction.
Qed.
Lemma fix_witness_ext : forall q encs encs' costs vm b fw,
  fix_witness encs costs vm b = Some fw ->
  (match q with Some (r, _) => forall l x, In l fw -> ax_var l = PVs x -> x < r | None => True end) ->
  (forall x, var_value (collect_lits (sol_lits b ++ flat_map (fun e => pe_extend e b) encs')) x =
     with_value q (collect_lits (sol_lits b ++ flat_map (fun e => pe_extend e b) encs)) x) ->
  exists fw', fix_witness encs' costs vm b = Some fw' /\
    forall l, In l fw' <-> In l fw \/ match q with Some (r, y) => l = axiom (mkLit r (negb y)) | None => False end.
Proof.
  intros q encs encs' costs vm b fw E Hq H. unfold fix_witness in *.
  destruct (value_fix costs vm (collect_lits (sol_lits b ++ flat_map (fun e => pe_extend e b) encs), [])) as [[g pvs]|] eqn:Ev; [|discriminate]. injection E as <-.
  assert (Hb : below_new q g).
  { destruct q as [[r y]|]; [|exact Logic.I]. intros x Hx. destruct (var_value g x) as [z|] eqn:Ex; [|congruence].
    apply (Hq (axiom (mkLit x (negb z))) x); [|reflexivity]. apply in_or_app. left. apply in_map. apply sol_value. unfold lit_value. cbn [lvar lneg]. rewrite Ex. destruct z; reflexivity. }
  destruct (value_fix_ext q _ _ _ _ _ _ _ Ev Hb H) as (g' & Ev' & Hg). rewrite Ev'. eexists. split; [reflexivity|].
  intros l. rewrite !in_app_iff. split.
  - intros [X|X]; [|left; right; exact X]. apply in_map_iff in X. destruct X as (x & <- & X). rewrite (sol_lits_with q g g' Hb Hg) in X.
    destruct X as [X|X]; [left; left; apply in_map; exact X|]. right. destruct q as [[r y]|]; [subst x; reflexivity|exact X].
  - intros [[X|X]|X]; [|right; exact X|].
    + apply in_map_iff in X. destruct X as (x & <- & X). left. apply in_map. rewrite (sol_lits_with q g g' Hb Hg). left. exact X.
    + left. destruct q as [[r y]|]; [|destruct X]. subst l. apply in_map. rewrite (sol_lits_with _ g g' Hb Hg). right. reflexivity.
Qed.

(** ** Lines over old variables *)
Lemma derive_line : forall k s, is_derivation s -> step_valid k s -> exists c, step_next k s = add_der k c /\
  (forall a, proof_holds a k -> lb_holds a c) /\
  forall v, In v (cvars c) -> In v (step_vars s) \/ exists e, In e (k_all k) /\ In v (cvars (snd e)).
Proof.
  intros k s D V.
  assert (Q : exists c, step_next k s = add_der k c /\ forall a, proof_holds a k -> lb_holds a c).
  { destruct s as [p|c hs|c w gs|ls full|ids|ids gs]; cbn [is_derivation] in D; try contradiction; cbn [step_valid step_next] in *.
    - destruct (pol_eval pv_eqd (id_get (k_all k) (k_next k)) p) as [c|] eqn:E; [|contradiction]. exists c. split; [reflexivity|]. intros a Ha.
      eapply (pol_sound pv_eqd); [|exact E]. intros i d. apply id_get_holds. exact Ha.
    - destruct V as (cs & E & R). exists c. split; [reflexivity|]. intros a Ha. apply (rup_sound cs c R). apply (hints_hold a _ _ hs cs Ha E). }
  destruct Q as (c & E & Hs). exists c. split; [exact E|]. split; [exact Hs|]. intros v Hv.
  apply (step_uses k s (k_next k, c)); [rewrite E; apply in_add_der; left; reflexivity|exact Hv].
Qed.
Lemma was_in_now : forall k0 p e, In e (k_all (kof k0 p)) -> was_in k0 p e.
Proof. intros k0 p e H. exists (ps_log p), []. rewrite app_nil_r. split; [reflexivity|exact H]. Qed.
Lemma was_in_more : forall k0 p p' ss e, ps_log p' = ps_log p ++ ss -> was_in k0 p e -> was_in k0 p' e.
Proof. intros k0 p p' ss e E (o & n & E1 & H). exists o, (n ++ ss). rewrite E, E1, app_assoc. split; [reflexivity|exact H]. Qed.
Lemma same_self : forall C : pconstr, lb_same pv_eqd C C.
Proof. intros C. split; reflexivity. Qed.
Lemma was_clause_now : forall k0 p c id C, In (id, C) (k_all (kof k0 p)) -> lb_same pv_eqd C (clause_pb c) -> was_clause k0 p c id.
Proof. intros k0 p c id C H S. exists C. split; [exact (was_in_now _ _ _ H)|exact S]. Qed.
Lemma was_clause_more : forall k0 p p' ss c id, ps_log p' = ps_log p ++ ss -> was_clause k0 p c id -> was_clause k0 p' c id.
Proof. intros k0 p p' ss c id E (C & H & S). exists C. split; [exact (was_in_more _ _ _ _ _ E H)|exact S]. Qed.
Lemma run_same : forall k0 n (sol : assignment -> Prop) cs nv p L done p' L', run_ok k0 n sol (mkRst cs nv p L done) ->
  wok k0 p' -> bounds_ok k0 (map co_obj cs) p' -> vmap_ok p' -> new_from k0 p' nv ->
  k_order (kof k0 p') = k_order (kof k0 p) -> k_excl (kof k0 p') = k_excl (kof k0 p) -> ps_vmap p' = ps_vmap p ->
  (exists ss, ps_log p' = ps_log p ++ ss) ->
  (forall e, In e (rm_ids L (k_all (kof k0 p))) -> In e (rm_ids L' (k_all (kof k0 p')))) ->
  (forall i, In i L' -> i < ps_next p') -> (forall e, In e (k_core (kof k0 p')) -> ~ In (fst e) L') ->
  (forall key l d1 d2, bound_get (ps_bounds p') key = Some (l, d1, d2) -> ~ In d1 L' /\ ~ In d2 L') ->
  (forall c id, In (c, id) (ps_reg p') -> In (c, id) (ps_reg p) \/ exists C, In (id, C) (k_all (kof k0 p')) /\ lb_same pv_eqd C (clause_pb c)) ->
  (forall a, proof_holds a (kof k0 p) -> proof_holds a (kof k0 p')) -> run_ok k0 n sol (mkRst cs nv p' L' done).
Proof.
  intros k0 n sol cs nv p L done p' L' [O1 O2 O3 O4 O5 O6 O7 O8 O9 O10 O11 O12 O13 O14 O15] W B V N Or Ex Ev (ss & El) M HL HC HB HR Hs.
  cbn [r_cs r_nv r_p r_del r_done] in *. constructor; cbn [r_cs r_nv r_p r_del r_done]; try assumption.
  - rewrite Or. exact O1.
  - exact (enc_fine_mono _ _ _ M O9).
  - intros c id H. destruct (HR c id H) as [X|(C & X & S)]; [exact (was_clause_more _ _ _ ss _ _ El (O13 c id X))|exact (was_clause_now _ _ _ _ C X S)].
  - rewrite Ex. exact O14.
  - intros b Hb Hd. destruct (O15 b Hb Hd) as (fw & H). exists fw.
    apply (lasting_gen k0 L L' _ _ _ nv nv p p' fw H); try assumption; [rewrite for_sol_obj; exact B|lia|]. intros a _. exact (Hs a).
Qed.
Lemma derive_ok : forall k0 n (sol : assignment -> Prop) cs nv p L done s (del : bool), run_ok k0 n sol (mkRst cs nv p L done) ->
  is_derivation s -> step_valid (kof k0 p) s -> (forall v, In v (step_vars s) -> match v with PVs x => x < nv | PVp m => m < ps_nextvar p end) ->
  run_ok k0 n sol (mkRst cs nv (snd (wr_id s p)) (if del then ps_next p :: L else L) done).
Proof.
  intros k0 n sol cs nv p L done s del R D Hv Hs. pose proof R as [O1 O2 O3 O4 O5 O6 O7 O8 O9 O10 O11 O12 O13 O14 O15]. cbn [r_cs r_nv r_p r_del r_done] in *.
  destruct (derive_line _ s D Hv) as (c & E & Hc & Hcv).
  destruct (frame_der k0 p p s c (frame_refl k0 p O2) Hv E) as (F & I & M); [|exact Hc|].
  { intros m Hm. destruct (Hcv _ Hm) as [X|(e & He & X)]; [exact (Hs _ X)|exact (wk_fresh _ _ O2 e m He X)]. }
  assert (Hlt : forall e, In e (k_all (kof k0 p)) -> fst e < ps_next p).
  { intros e He. rewrite <- (wk_next _ _ O2). exact (proj2 (wk_ids _ _ O2) e He). }
  assert (HL' : forall i, In i (if del then ps_next p :: L else L) -> i = ps_next p \/ In i L).
  { destruct del; intros i Hi; [destruct Hi as [Hi|Hi]; [left; symmetry; exact Hi|right; exact Hi]|right; exact Hi]. }
  apply (run_same k0 n sol cs nv p L done _ _ R (fr_wok _ _ _ F)).
  - apply (bounds_mono k0 _ p _ O3); [exact (fr_bounds _ _ _ F)|exact (fr_old _ _ _ F)|]. intros x Hx. rewrite (fr_vmap _ _ _ F). exact Hx.
  - intros x m Hx Em. rewrite (fr_vmap _ _ _ F) in Hx. rewrite (fr_nextvar _ _ _ F). exact (O4 x m Hx Em).
  - intros r Hr. destruct (O5 r Hr) as (U1 & U2). split; [exact U1|]. cbn [wr_id snd ps_log]. rewrite flat_map_app. intros X. apply in_app_or in X.
    destruct X as [X|X]; [exact (U2 X)|]. cbn [flat_map] in X. rewrite app_nil_r in X. pose proof (Hs _ X) as Y. cbn in Y. lia.
  - exact (fr_order _ _ _ F).
  - exact (fr_excl _ _ _ F).
  - exact (fr_vmap _ _ _ F).
  - eexists. reflexivity.
  - intros e He. rewrite rm_in in *. destruct He as (He & Hd). split; [exact (M e He)|]. intros X. pose proof (Hlt e He). destruct (HL' _ X) as [Y|Y]; [lia|exact (Hd Y)].
  - intros i Hi. change (ps_next (snd (wr_id s p))) with (S (ps_next p)). destruct (HL' i Hi) as [->|Y]; [lia|]. pose proof (O10 i Y). lia.
  - intros e He X. rewrite (fr_core _ _ _ F) in He. assert (Hin : In e (k_all (kof k0 p))) by (apply in_k_all; left; exact He). pose proof (Hlt e Hin).
    destruct (HL' _ X) as [Y|Y]; [lia|exact (O11 e He Y)].
  - intros key l d1 d2 G. rewrite (fr_bounds _ _ _ F) in G. destruct (O12 _ _ _ _ G) as (N1 & N2). destruct key as [i v]. destruct (O3 _ _ _ _ _ G) as (o & m & _ & _ & _ & I1 & I2 & _).
    pose proof (Hlt _ I1) as L1. pose proof (Hlt _ I2) as L2. cbn [fst] in L1, L2. split; intros X; (destruct (HL' _ X) as [Y|Y]; [lia|]); [exact (N1 Y)|exact (N2 Y)].
  - intros c0 id H. left. exact H.
  - exact (fr_sound _ _ _ F).
Qed.
Lemma delete_ok : forall k0 n (sol : assignment -> Prop) cs nv p L done ids, run_ok k0 n sol (mkRst cs nv p L done) -> incl ids L ->
  run_ok k0 n sol (mkRst cs nv (wr (SDel (map CAbs ids) []) p) L done).
Proof.
  intros k0 n sol cs nv p L done ids R Hi. pose proof R as [O1 O2 O3 O4 O5 O6 O7 O8 O9 O10 O11 O12 O13 O14 O15]. cbn [r_cs r_nv r_p r_del r_done] in *.
  destruct (wok_del k0 p ids O2) as (W & A & C).
  { intros i C Hin X. exact (O11 _ X (Hi _ Hin)). }
  apply (run_same k0 n sol cs nv p L done _ _ R W).
  - intros i v l d1 d2 G. change (ps_bounds (wr (SDel (map CAbs ids) []) p)) with (ps_bounds p) in G. destruct (O12 _ _ _ _ G) as (N1 & N2).
    destruct (O3 _ _ _ _ _ G) as (o & m & X1 & X2 & X3 & X4 & X5 & X6). exists o, m. do 3 (split; [assumption|]). split; [|split; [|exact X6]].
    + apply A. split; [exact X4|]. intros X. exact (N1 (Hi _ X)).
    + apply A. split; [exact X5|]. intros X. exact (N2 (Hi _ X)).
  - exact O4.
  - intros r Hr. destruct (O5 r Hr) as (U1 & U2). split; [exact U1|]. cbn [wr ps_log]. rewrite flat_map_app. intros X. apply in_app_or in X. destruct X as [X|X]; [exact (U2 X)|destruct X].
  - rewrite kof_wr. reflexivity.
  - rewrite kof_wr. reflexivity.
  - reflexivity.
  - eexists. reflexivity.
  - intros [i D] He. rewrite rm_in in *. destruct He as (He & Hd). split; [|exact Hd]. apply A. split; [exact He|]. intros X. exact (Hd (Hi _ X)).
  - exact O10.
  - intros e He. exact (O11 e (C e He)).
  - exact O12.
  - intros c id H. left. exact H.
  - intros a Ha [i D] He. apply Ha. apply A in He. exact (proj1 He).
Qed.
Lemma clause_ok : forall k0 n (sol : assignment -> Prop) cs nv p L done c id C, run_ok k0 n sol (mkRst cs nv p L done) -> In (id, C) (k_all (kof k0 p)) -> lb_same pv_eqd C (clause_pb c) ->
  run_ok k0 n sol (mkRst cs nv (add_cert c id p) L done).
Proof.
  intros k0 n sol cs nv p L done c id C R H S. pose proof R as [O1 O2 O3 O4 O5 O6 O7 O8 O9 O10 O11 O12 O13 O14 O15]. cbn [r_cs r_nv r_p r_del r_done] in *.
  apply (run_same k0 n sol cs nv p L done (add_cert c id p) L R); try assumption; try reflexivity; try (intros e He; exact He).
  - destruct O2 as [w1 w2 w3 w4]. constructor; assumption.
  - exists []. rewrite app_nil_r. reflexivity.
  - intros c' i H'. cbn [add_cert ps_reg] in H'. apply in_app_or in H'. destruct H' as [H'|[H'|[]]]; [left; exact H'|]. injection H' as <- <-. right. exists C. split; [exact H|exact S].
Qed.

(** ** New outputs and new encodings *)
Definition holds_new (q : option (nat * bool)) (a : pv -> bool) : Prop := match q with Some (r, y) => a (PVs r) = y | None => True end.
Definition lits_new (q : option (nat * bool)) : list (ax pv) := match q with Some (r, y) => [axiom (mkLit r (negb y))] | None => [] end.
Lemma lits_new_holds : forall q a, ax_all a (lits_new q) <-> holds_new q a.
Proof.
  intros [[r y]|] a; cbn [lits_new holds_new]; [|split; [intros _; exact Logic.I|intros _ l []]]. split.
  - intros H. specialize (H _ (or_introl eq_refl)). unfold ax_true in H. cbn in H. destruct y, (a (PVs r)); cbn in H; congruence.
  - intros <- l [<-|[]]. unfold ax_true. cbn. destruct (a (PVs r)); reflexivity.
Qed.
Lemma lits_new_in : forall q l, In l (lits_new q) <-> match q with Some (r, y) => l = axiom (mkLit r (negb y)) | None => False end.
Proof. intros [[r y]|] l; cbn [lits_new In]; [|tauto]. split; [intros [<-|[]]; reflexivity|intros ->; left; reflexivity]. Qed.
Lemma cost_of : forall o n b a, (forall l w, In (l, w) (obj_iter o) -> lvar l <= n) -> (forall x, x <= n -> a (PVs x) = asg_of b x) ->
  icost o (on_solver a) = icost o (asg_of b).
Proof.
  intros o n b a Ho Ha. unfold icost. apply wsum_ext. intros [l w] Hl. unfold lit_true, on_solver. cbn [fst]. rewrite (Ha _ (Ho l w Hl)). reflexivity.
Qed.
Lemma lasting_enc : forall q k0 n L cs cs' b nv nv' p p' fw, lasting k0 L (for_sol cs b) b n nv p fw -> total_to n b ->
  (forall c l w, In c cs -> In (l, w) (obj_iter (co_obj c)) -> lvar l <= n) ->
  map co_obj cs' = map co_obj cs -> (forall x, ext_value cs' b x = with_value q (collect_lits (sol_lits b ++ flat_map (fun e => pe_extend e b) (map co_enc cs))) x) ->
  enc_fine (rm_ids L (k_all (kof k0 p'))) cs' ->
  wok k0 p' -> bounds_ok k0 (map co_obj cs) p' -> vmap_ok p' -> new_from k0 p' nv' -> nv <= nv' ->
  match q with Some (r, _) => nv <= r < nv' | None => True end ->
  k_order (kof k0 p') = k_order (kof k0 p) -> ps_vmap p' = ps_vmap p -> ps_bounds p' = ps_bounds p -> ps_next p <= ps_next p' ->
  (forall e, In e (k_all (kof k0 p)) -> In e (k_all (kof k0 p'))) ->
  (forall a, ax_all a fw -> proof_holds a (kof k0 p) -> holds_new q a -> proof_holds a (kof k0 p')) ->
  (forall l, In l (lits_new q) -> exists c, In c (map snd (rm_ids L (k_all (kof k0 p')))) /\ propagates fw c l) ->
  exists f', lasting k0 L (for_sol cs' b) b n nv' p' f'.
Proof.
  intros q k0 n L cs cs' b nv nv' p p' fw H T Ho Eo Ee Hf W B V N Ln Hq Or Ev Eb Hnx M Hs Hp. pose proof H as [[R1 R2 R3 R4 R5 R6 R7 R8 R9 R10 R11 R12] HL HB HC HU].
  destruct (fix_witness_ext q _ (map co_enc cs') _ _ _ _ R7) as (f' & Ef & Hf').
  { destruct q as [[r y]|]; [|exact Logic.I]. intros l x Hl Ex. pose proof (R8 l x Hl Ex). lia. }
  { intros x. rewrite for_sol_enc. exact (Ee x). }
  assert (Hin : forall l, In l f' <-> In l fw \/ In l (lits_new q)) by (intros l; rewrite Hf', lits_new_in; reflexivity).
  assert (Hall : forall a, ax_all a f' <-> ax_all a fw /\ holds_new q a).
  { intros a. rewrite <- lits_new_holds. split.
    - intros X. split; intros l Hl; apply X; apply Hin; [left|right]; exact Hl.
    - intros (X & Y) l Hl. apply Hin in Hl. destruct Hl as [Hl|Hl]; [exact (X l Hl)|exact (Y l Hl)]. }
  assert (Ho' : forall c l w, In c cs' -> In (l, w) (obj_iter (co_obj c)) -> lvar l <= n).
  { intros c l w Hc Hl. assert (X : In (co_obj c) (map co_obj cs)) by (rewrite <- Eo; apply in_map; exact Hc). apply in_map_iff in X. destruct X as (c0 & E & Hc0).
    apply (Ho c0 l w Hc0). rewrite E. exact Hl. }
  assert (Hv : forall a, ax_all a fw -> forall x, x <= n -> a (PVs x) = asg_of b x) by (intros a Ha x Hx; exact (lasting_vals k0 L _ n b nv p fw a x H T Ha Hx)).
  assert (Hph : forall a, ax_all a f' -> proof_holds a (kof k0 p')).
  { intros a Ha. apply Hall in Ha. destruct Ha as (X & Y). exact (Hs a X (proj1 (R10 a X)) Y). }
  assert (Hsub : forall x, In x (map snd (rm_ids L (k_all (kof k0 p')))) -> In x (map snd (k_all (kof k0 p')))).
  { intros x Hx. apply in_map_iff in Hx. destruct Hx as (e & <- & He). apply in_map. exact (rm_ids_in _ _ _ He). }
  assert (Hu : up_to (map snd (rm_ids L (k_all (kof k0 p')))) (map axiom (sol_lits (truncate b n))) f').
  { apply (up_to_same _ _ (fw ++ lits_new q)); [intros l; rewrite in_app_iff; apply Hin|]. apply up_to_ext; [|exact Hp].
    apply (up_to_more (map snd (rm_ids L (k_all (kof k0 p))))); [|exact HU]. intros x Hx. apply in_map_iff in Hx. destruct Hx as (e & <- & He). apply in_map.
    rewrite rm_in in *. destruct He as (He & Hd). split; [exact (M e He)|exact Hd]. }
  exists f'. constructor; [constructor| | | |]; try assumption.
  - rewrite for_sol_obj, Eo, Or. rewrite for_sol_obj in R1. exact R1.
  - rewrite for_sol_obj, Eo. exact B.
  - rewrite <- for_sol_ok. eapply Forall_impl; [|exact (proj1 Hf)]. intros c. apply cobj_ok_mono. intros e He. exact (rm_ids_in _ _ _ He).
  - rewrite for_sol_enc, for_sol_cost, Eo, Ev. rewrite for_sol_cost in Ef. exact Ef.
  - intros l r Hl E. apply Hin in Hl. destruct Hl as [Hl|Hl]; [pose proof (R8 l r Hl E); lia|]. destruct q as [[r' y]|]; [|destruct Hl]. destruct Hl as [<-|[]].
    cbn [axiom ax_var lvar] in E. injection E as <-. lia.
  - destruct R9 as (a & Ha). destruct q as [[r y]|].
    + exists (put a (PVs r) y). apply Hall. split; [|exact (put_same _ _ _)]. intros l Hl. unfold ax_true. rewrite put_other; [exact (Ha l Hl)|].
      intros E. pose proof (R8 l r Hl E). lia.
    + exists a. apply Hall. split; [exact Ha|exact Logic.I].
  - intros a Ha. split; [exact (Hph a Ha)|]. intros c Hc. apply for_sol_in in Hc. destruct Hc as (c0 & Hc0 & ->). cbn [co_obj co_cost].
    apply (cost_of _ n); [intros l w; exact (Ho' c0 l w Hc0)|]. apply Hv. exact (proj1 (proj1 (Hall a) Ha)).
  - apply Forall_forall. intros c Hc. apply for_sol_in in Hc. destruct Hc as (c0 & Hc0 & ->). intros Hlt a Ha. cbn [co_obj co_cost co_enc] in *.
    assert (Ec : icost (co_obj c0) (on_solver a) = icost (co_obj c0) (asg_of b)).
    { apply (cost_of _ n); [intros l w; exact (Ho' c0 l w Hc0)|]. apply Hv. exact (proj1 (proj1 (Hall a) Ha)). }
    rewrite <- Ec in *. apply (proj2 Hf c0 Hc0 a); [|exact Hlt]. intros e He. apply (Hph a Ha). exact (rm_ids_in _ _ _ He).
  - exact (up_to_more _ _ _ _ Hsub Hu).
  - intros i Hi. pose proof (HL i Hi). lia.
  - rewrite Eb. exact HB.
  - rewrite <- for_sol_ok. exact (proj1 Hf).
Qed.

Lemma sum_bounds : forall ts (a : pv -> bool), w_wf ts -> (0 <= lb_sum a ts <= wtot ts)%Z.
Proof.
  intros ts a (_ & H). induction ts as [|[w l] ts IH]; [unfold wtot; cbn; lia|].
  assert (IH' := IH (fun t Ht => H t (or_intror Ht))). specialize (H _ (or_introl eq_refl)). cbn [fst] in H.
  unfold wtot in *. cbn [lb_sum map fst zsum fold_right] in *. unfold zsum in IH'. destruct (ax_true a l); cbn [b2z]; lia.
Qed.
Lemma value_fix_keep : forall costs vm f q g pvs x, value_fix costs vm (f, q) = Some (g, pvs) -> ~ In (PVs x) (map (fun e => ax_var (fst e)) vm) -> var_value g x = var_value f x.
Proof.
  intros costs vm. induction vm as [|[this v] vm IH]; intros f q g pvs x E H; cbn [value_fix] in E; [injection E as <- _; reflexivity|].
  assert (Q : forall bb f' q', assign_ax this bb (f, q) = (f', q') -> var_value f' x = var_value f x).
  { intros bb f' q' X. unfold assign_ax in X. destruct (ax_var (if bb then this else ax_not this)) as [r|r] eqn:Er; cbn [fst snd] in X; injection X as <- _; [|reflexivity].
    unfold assign_lit. cbn [lvar]. rewrite assign_at_value. destruct (Nat.eqb_spec x r) as [->|]; [|reflexivity]. exfalso. apply H. left. cbn [fst]. destruct bb; [exact Er|].
    destruct this as [tv tn]. exact Er. }
  assert (H' : ~ In (PVs x) (map (fun e => ax_var (fst e)) vm)) by (intros X; apply H; right; exact X).
  destruct v as [that|i v].
  - cbn [fst] in E. destruct (lit_value f that) as [bb|]; [|discriminate]. destruct (assign_ax this bb (f, q)) as [f' q'] eqn:Ea. rewrite (IH _ _ _ _ x E H'). exact (Q bb f' q' Ea).
  - destruct (nth_error costs i) as [c|]; [|discriminate]. destruct (assign_ax this (v <=? c) (f, q)) as [f' q'] eqn:Ea. rewrite (IH _ _ _ _ x E H'). exact (Q _ f' q' Ea).
Qed.
Lemma fix_value : forall encs costs vm b fw a x y, fix_witness encs costs vm b = Some fw -> ~ In (PVs x) (map (fun e => ax_var (fst e)) vm) ->
  var_value (collect_lits (sol_lits b ++ flat_map (fun e => pe_extend e b) encs)) x = Some y -> ax_all a fw -> a (PVs x) = y.
Proof.
  intros encs costs vm b fw a x y E Hx Ey Ha. unfold fix_witness in E. destruct (value_fix costs vm (collect_lits _, [])) as [[g pvs]|] eqn:Ev; [|discriminate]. injection E as <-.
  pose proof (value_fix_keep _ _ _ _ _ _ x Ev Hx) as Eg. rewrite Ey in Eg.
  assert (Hl : In (mkLit x (negb y)) (sol_lits g)) by (apply sol_value; unfold lit_value; cbn [lvar lneg]; rewrite Eg; destruct y; reflexivity).
  specialize (Ha _ (in_or_app _ _ _ (or_introl (in_map axiom _ _ Hl)))). unfold ax_true in Ha. cbn [axiom ax_var ax_neg lvar lneg] in Ha. destruct y, (a (PVs x)); cbn in Ha; congruence.
Qed.
Lemma ts_sum : forall ts cs b a, (forall t, In t ts -> exists x y, ax_var (snd t) = PVs x /\ ext_value cs b x = Some y /\ a (PVs x) = y) ->
  lb_sum a ts = ts_value cs b ts.
Proof.
  intros ts cs b a H. unfold ts_value. induction ts as [|[w l] ts IH]; [reflexivity|]. cbn [lb_sum]. rewrite (IH (fun t Ht => H t (or_intror Ht))).
  destruct (H _ (or_introl eq_refl)) as (x & y & E & Ey & Ea). cbn [snd] in E. unfold ax_true. rewrite E, Ea, Ey. destruct y; reflexivity.
Qed.
Lemma wif_holds : forall a ts nv v, w_wf ts -> (0 < v <= wtot ts)%Z -> ~ In (PVs nv) (map ax_var (map snd ts)) ->
  (lb_holds a (wif_def ts (mkAx (PVs nv) false) v) <-> (a (PVs nv) = false -> (lb_sum a ts < v)%Z)).
Proof.
  intros a ts nv v Hw Hv Ho. set (o := mkAx (PVs nv) false). assert (Ho' : ~ In (ax_var o) (map ax_var (map snd ts))) by exact Ho.
  pose proof (wif_val a _ ts o v Hw (proj2 Hv) Ho' (wif_concrete ts o v Hw (proj2 Hv) Ho')) as E.
  pose proof (sum_bounds ts a Hw). assert (Hh : lb_holds a (wif_def ts o v) <-> (0 <= lb_val a (wif_def ts o v))%Z) by (unfold lb_holds, lb_val; lia).
  rewrite Hh, E. unfold o, ax_true. cbn [ax_var ax_neg xorb]. destruct (a (PVs nv)); cbn [b2z]; split; intros; try discriminate; lia.
Qed.
Lemma wonly_holds : forall a ts nv v, w_wf ts -> (0 < v <= wtot ts)%Z -> ~ In (PVs nv) (map ax_var (map snd ts)) ->
  (lb_holds a (wonly_def ts (mkAx (PVs nv) false) v) <-> (a (PVs nv) = true -> (v <= lb_sum a ts)%Z)).
Proof.
  intros a ts nv v Hw Hv Ho. set (o := mkAx (PVs nv) false). assert (Ho' : ~ In (ax_var o) (map ax_var (map snd ts))) by exact Ho.
  pose proof (wonly_val a _ ts o v Hw (proj1 Hv) Ho' (wonly_concrete ts o v Hw (proj1 Hv) Ho')) as E.
  pose proof (sum_bounds ts a Hw). assert (Hh : lb_holds a (wonly_def ts o v) <-> (0 <= lb_val a (wonly_def ts o v))%Z) by (unfold lb_holds, lb_val; lia).
  rewrite Hh, E. unfold o, ax_true. cbn [ax_var ax_neg xorb]. destruct (a (PVs nv)); cbn [b2z]; split; intros; try discriminate; lia.
Qed.
Lemma def_vars : forall ts nv v u, (In u (cvars (wif_def ts (mkAx (PVs nv) false) v)) -> u = PVs nv \/ In u (map ax_var (map snd ts))) /\
  (In u (cvars (wonly_def ts (mkAx (PVs nv) false) v)) -> u = PVs nv \/ In u (map ax_var (map snd ts))).
Proof.
  intros ts nv v u. unfold cvars, wif_def, wonly_def. cbn [lb_terms]. rewrite !map_app, !map_map. cbn [map snd fst]. split; intros H; apply in_app_or in H; (destruct H as [H|[H|[]]]; [right; exact H|left; symmetry; exact H]).
Qed.
Section Output.
Variables (k0 : chk) (p : pst) (nv : nat) (ts : list (Z * ax pv)) (v : Z).
Hypothesis Hw : w_wf ts.
Hypothesis Hv : (0 < v <= wtot ts)%Z.
Hypothesis Ho : ~ In (PVs nv) (map ax_var (map snd ts)).
Hypothesis Hts : forall t, In t ts -> exists x, ax_var (snd t) = PVs x.
Hypothesis W : wok k0 p.
Hypothesis Hr : forall a, ord_holds (k_order (kof k0 p)) a a.
Hypothesis Hf : ord_free (k_order (kof k0 p)) (PVs nv).
Hypothesis Hu : unused (kof k0 p) nv.
Let d1 := wif_def ts (mkAx (PVs nv) false) v.
Let d2 := wonly_def ts (mkAx (PVs nv) false) v.
Let p1 := snd (wr_id (SRed d1 [(PVs nv, true)] []) p).
Let p2 := snd (wr_id (SRed d2 [(PVs nv, false)] []) p1).
Lemma output_lines : wok k0 p2 /\ kof k0 p2 = add_der (add_der (kof k0 p) d1) d2.
Proof.
  assert (Hpv : forall c, (forall u, In u (cvars c) -> u = PVs nv \/ In u (map ax_var (map snd ts))) -> forall m, In (PVp m) (cvars c) -> False).
  { intros c H m Hm. destruct (H _ Hm) as [X|X]; [discriminate|]. rewrite map_map in X. apply in_map_iff in X. destruct X as (t & E & Ht). destruct (Hts t Ht) as (x & E'). congruence. }
  assert (V1 : step_valid (kof k0 p) (SRed d1 [(PVs nv, true)] [])).
  { cbn [step_valid]. apply red_free; [exact Hr|exact Hf| |intros e He; left; exact (Hu e He)]. intros a Ha. unfold d1. rewrite wif_holds by assumption. congruence. }
  destruct (wok_der k0 p _ d1 W V1 eq_refl) as (W1 & I1 & M1).
  { intros m Hm. exfalso. exact (Hpv d1 (fun u => proj1 (def_vars ts nv v u)) m Hm). }
  fold p1 in W1, I1, M1. assert (K1 : kof k0 p1 = add_der (kof k0 p) d1) by (unfold p1; rewrite kof_wr_id; reflexivity).
  assert (V2 : step_valid (kof k0 p1) (SRed d2 [(PVs nv, false)] [])).
  { cbn [step_valid]. apply red_free; [rewrite K1; exact Hr|rewrite K1; exact Hf| |].
    - intros a Ha. unfold d2. rewrite wonly_holds by assumption. congruence.
    - intros e He. rewrite K1 in He. apply in_add_der in He. destruct He as [->|He]; [|left; exact (Hu e He)]. right. intros a Ha. cbn [snd].
      unfold d1, d2 in *. rewrite wonly_holds in Ha by assumption. apply wif_holds; [assumption|assumption|assumption|]. intros _.
      assert (E : lb_sum (su_asg pv_eqd [(PVs nv, false)] a) ts = lb_sum a ts).
      { transitivity (lb_sum (put a (PVs nv) false) ts); [|apply t_sum_put; exact Ho]. clear. induction ts as [|[w l] us IH]; [reflexivity|]. cbn [lb_sum]. rewrite IH. unfold ax_true. rewrite su_one. reflexivity. }
      rewrite E. destruct (Z.ltb_spec (lb_sum a ts) v) as [X|X]; [exact X|]. exfalso. apply Ha. intros _. exact X. }
  destruct (wok_der k0 p1 _ d2 W1 V2 eq_refl) as (W2 & I2 & M2).
  { intros m Hm. exfalso. exact (Hpv d2 (fun u => proj2 (def_vars ts nv v u)) m Hm). }
  fold p2 in W2. split; [exact W2|]. unfold p2. rewrite kof_wr_id, K1. reflexivity.
Qed.
End Output.
Lemma output_ok : forall k0 n (sol : assignment -> Prop) cs cs' nv p L done ts v, (forall b, sol b -> total_to n b) -> run_ok k0 n sol (mkRst cs nv p L done) ->
  w_wf ts -> (0 < v <= wtot ts)%Z -> (forall t, In t ts -> exists x, ax_var (snd t) = PVs x /\ summand sol cs nv p x) ->
  map co_obj cs' = map co_obj cs ->
  (forall b x, sol b -> ext_value cs' b x = if x =? nv then Some (v <=? ts_value cs b ts)%Z else ext_value cs b x) ->
  let p1 := snd (wr_id (SRed (wif_def ts (mkAx (PVs nv) false) v) [(PVs nv, true)] []) p) in
  let p2 := snd (wr_id (SRed (wonly_def ts (mkAx (PVs nv) false) v) [(PVs nv, false)] []) p1) in
  enc_fine (rm_ids L (k_all (kof k0 p2))) cs' -> run_ok k0 n sol (mkRst cs' (S nv) p2 L done).
Proof.
  intros k0 n sol cs cs' nv p L done ts v Hsol R Hw Hv Hts Eo Ee p1 p2 Hf. pose proof R as [O1 O2 O3 O4 O5 O6 O7 O8 O9 O10 O11 O12 O13 O14 O15]. cbn [r_cs r_nv r_p r_del r_done] in *.
  assert (Ho : ~ In (PVs nv) (map ax_var (map snd ts))).
  { intros X. rewrite map_map in X. apply in_map_iff in X. destruct X as (t & E & Ht). destruct (Hts t Ht) as (x & E' & (Hx & _)). rewrite E in E'. injection E' as <-. lia. }
  assert (Hr : forall a, ord_holds (k_order (kof k0 p)) a a).
  { intros a. rewrite O1. apply ord_holds_objs. apply Forall_forall. intros o _. lia. }
  assert (Hof : ord_free (k_order (kof k0 p)) (PVs nv)).
  { rewrite O1. intros d t x Hd Ht E X. apply in_map_iff in Hd. destruct Hd as (o & <- & Hin). unfold obj_order in Ht. cbn [lb_terms] in Ht.
    apply in_flat_map in Ht. destruct Ht as ([l w] & Hl & Ht). cbn [fst snd] in Ht. injection X as X. apply in_map_iff in Hin. destruct Hin as (c' & <- & Hc').
    pose proof (O7 c' l w Hc' Hl). destruct Ht as [<-|[<-|[]]]; cbn [snd ax_var axiom] in E; [|discriminate]. injection E as E. subst. lia. }
  destruct (output_lines k0 p nv ts v Hw Hv Ho (fun t Ht => match Hts t Ht with ex_intro _ x (conj E _) => ex_intro _ x E end) O2 Hr Hof (new_unused k0 p nv nv O5 (le_n _))) as (W2 & K2).
  cbv zeta in W2, K2. fold p1 in W2, K2. fold p2 in W2, K2.
  set (d1 := wif_def ts (mkAx (PVs nv) false) v) in *. set (d2 := wonly_def ts (mkAx (PVs nv) false) v) in *.
  assert (Hall : forall e, In e (k_all (kof k0 p2)) <-> e = (S (ps_next p), d2) \/ e = (ps_next p, d1) \/ In e (k_all (kof k0 p))).
  { intros e. rewrite K2, !in_add_der. cbn [add_der k_next]. rewrite (wk_next _ _ O2). reflexivity. }
  assert (M : forall e, In e (k_all (kof k0 p)) -> In e (k_all (kof k0 p2))) by (intros e He; apply Hall; right; right; exact He).
  assert (HLs : forall i, In i L -> i < ps_next p) by exact O10.
  assert (B2 : bounds_ok k0 (map co_obj cs) p2) by (apply (bounds_mono k0 _ p _ O3); [reflexivity|exact M|intros x Hx; exact Hx]).
  assert (N2 : new_from k0 p2 (S nv)).
  { intros r Hlt. destruct (O5 r) as (U1 & U2); [lia|]. split; [exact U1|]. intros X.
    assert (Hlog : ps_log p2 = (ps_log p ++ [SRed d1 [(PVs nv, true)] []]) ++ [SRed d2 [(PVs nv, false)] []]) by reflexivity.
    rewrite Hlog, !flat_map_app in X. rewrite !in_app_iff in X. cbn [flat_map step_vars] in X. rewrite !app_nil_r in X.
    assert (Q : ~ (PVs r = PVs nv \/ In (PVs r) (map ax_var (map snd ts)))).
    { intros [Y|Y]; [injection Y as Y; lia|]. rewrite map_map in Y. apply in_map_iff in Y. destruct Y as (t & E & Ht). destruct (Hts t Ht) as (x & E' & (Hx & _)). rewrite E in E'. injection E' as <-. lia. }
    destruct X as [[X|X]|X]; [exact (U2 X)|exact (Q (proj1 (def_vars ts nv v _) X))|exact (Q (proj2 (def_vars ts nv v _) X))]. }
  constructor; cbn [r_cs r_nv r_p r_del r_done]; try assumption.
  - rewrite Eo, K2. exact O1.
  - rewrite Eo. exact B2.
  - lia.
  - intros c l w Hc Hl. assert (X : In (co_obj c) (map co_obj cs)) by (rewrite <- Eo; apply in_map; exact Hc). apply in_map_iff in X. destruct X as (c0 & E & Hc0).
    apply (O7 c0 l w Hc0). rewrite E. exact Hl.
  - intros i c Hn. assert (X : nth_error (map co_obj cs) i = Some (co_obj c)) by (rewrite <- Eo; apply map_nth_error; exact Hn). rewrite nth_error_map in X.
    destruct (nth_error cs i) as [c0|] eqn:E; [|discriminate]. injection X as <-. exact (O8 i c0 E).
  - intros i Hi. change (ps_next p2) with (S (S (ps_next p))). pose proof (O10 i Hi). lia.
  - intros e He. rewrite K2 in He. exact (O11 e He).
  - intros c id H. change (ps_reg p2) with (ps_reg p) in H. assert (Hlog : ps_log p2 = ps_log p ++ [SRed d1 [(PVs nv, true)] []; SRed d2 [(PVs nv, false)] []]) by (unfold p2, p1; cbn [wr_id snd ps_log]; rewrite <- app_assoc; reflexivity).
    exact (was_clause_more _ _ _ _ _ _ Hlog (O13 c id H)).
  - rewrite K2. exact O14.
  - intros b Hb Hd. assert (Hd' : forall d, In d done -> better cs b d).
    { intros d Hin. destruct (Hd d Hin) as (c & Hc & Hlt). assert (X : In (co_obj c) (map co_obj cs)) by (rewrite <- Eo; apply in_map; exact Hc).
      apply in_map_iff in X. destruct X as (c0 & E & Hc0). exists c0. rewrite E. split; assumption. }
    destruct (O15 b Hb Hd') as (fw & H). pose proof (Hsol b Hb) as T.
    assert (Hs : forall a, ax_all a fw -> lb_sum a ts = ts_value cs b ts).
    { intros a Ha. apply ts_sum. intros t Ht. destruct (Hts t Ht) as (x & E' & (_ & Hk & Hx)). specialize (Hx b Hb). destruct (ext_value cs b x) as [y|] eqn:Ey; [|congruence].
      exists x, y. split; [exact E'|]. split; [exact Ey|]. pose proof (rd_fix _ _ _ _ _ _ _ (la_ready _ _ _ _ _ _ _ _ H)) as F. rewrite for_sol_enc in F.
      exact (fix_value _ _ _ _ _ a x y F Hk Ey Ha). }
    apply (lasting_enc (Some (nv, (v <=? ts_value cs b ts)%Z)) k0 n L cs cs' b nv (S nv) p p2 fw H T); try assumption; try reflexivity.
    + intros x. cbn [with_value]. exact (Ee b x Hb).
    + lia.
    + lia.
    + rewrite K2. reflexivity.
    + change (ps_next p2) with (S (S (ps_next p))). lia.
    + intros a Ha Hp Hq e He. cbn [holds_new] in Hq. apply Hall in He. destruct He as [->|[->|He]]; cbn [snd].
      * unfold d2. apply wonly_holds; try assumption. rewrite Hq, (Hs a Ha). apply Z.leb_le.
      * unfold d1. apply wif_holds; try assumption. rewrite Hq, (Hs a Ha). apply Z.leb_gt.
      * exact (Hp e He).
    + intros l [<-|[]]. destruct (Z.leb_spec v (ts_value cs b ts)) as [Hle|Hgt].
      * exists d1. split.
        -- apply (in_map snd _ (ps_next p, d1)). rewrite rm_in. split; [apply Hall; right; left; reflexivity|]. cbn [fst]. intros X. pose proof (O10 _ X). lia.
        -- intros a Ha Hh. unfold d1 in Hh. rewrite wif_holds in Hh by assumption. rewrite (Hs a Ha) in Hh. unfold ax_true. cbn. destruct (a (PVs nv)); [reflexivity|]. specialize (Hh eq_refl). lia.
      * exists d2. split.
        -- apply (in_map snd _ (S (ps_next p), d2)). rewrite rm_in. split; [apply Hall; left; reflexivity|]. cbn [fst]. intros X. pose proof (O10 _ X). lia.
        -- intros a Ha Hh. unfold d2 in Hh. rewrite wonly_holds in Hh by assumption. rewrite (Hs a Ha) in Hh. unfold ax_true. cbn. destruct (a (PVs nv)); [|reflexivity]. specialize (Hh eq_refl). lia.
Qed.
Lemma encoding_ok : forall k0 n (sol : assignment -> Prop) cs cs' nv p L done, (forall b, sol b -> total_to n b) -> run_ok k0 n sol (mkRst cs nv p L done) ->
  map co_obj cs' = map co_obj cs -> (forall b x, sol b -> ext_value cs' b x = ext_value cs b x) ->
  enc_fine (rm_ids L (k_all (kof k0 p))) cs' -> run_ok k0 n sol (mkRst cs' nv p L done).
Proof.
  intros k0 n sol cs cs' nv p L done Hsol R Eo Ee Hf. pose proof R as [O1 O2 O3 O4 O5 O6 O7 O8 O9 O10 O11 O12 O13 O14 O15]. cbn [r_cs r_nv r_p r_del r_done] in *.
  constructor; cbn [r_cs r_nv r_p r_del r_done]; try assumption.
  - rewrite Eo. exact O1.
  - rewrite Eo. exact O3.
  - intros c l w Hc Hl. assert (X : In (co_obj c) (map co_obj cs)) by (rewrite <- Eo; apply in_map; exact Hc). apply in_map_iff in X. destruct X as (c0 & E & Hc0).
    apply (O7 c0 l w Hc0). rewrite E. exact Hl.
  - intros i c Hn. assert (X : nth_error (map co_obj cs) i = Some (co_obj c)) by (rewrite <- Eo; apply map_nth_error; exact Hn). rewrite nth_error_map in X.
    destruct (nth_error cs i) as [c0|] eqn:E; [|discriminate]. injection X as <-. exact (O8 i c0 E).
  - intros b Hb Hd. assert (Hd' : forall d, In d done -> better cs b d).
    { intros d Hin. destruct (Hd d Hin) as (c & Hc & Hlt). assert (X : In (co_obj c) (map co_obj cs)) by (rewrite <- Eo; apply in_map; exact Hc).
      apply in_map_iff in X. destruct X as (c0 & E & Hc0). exists c0. rewrite E. split; assumption. }
    destruct (O15 b Hb Hd') as (fw & H).
    apply (lasting_enc None k0 n L cs cs' b nv nv p p fw H (Hsol b Hb)); try assumption; try reflexivity.
    + intros x. exact (Ee b x Hb).
    + intros e He. exact He.
    + intros a _ Hp _. exact Hp.
    + intros l [].
Qed.

(** ** Blocking *)
Lemma lasting_ready : forall k0 L cs b w n nv p f f', lasting k0 L cs b n nv p f -> truncate b n = b -> truncate w n = b ->
  fix_witness (map co_enc cs) (map co_cost cs) (ps_vmap p) w = Some f' -> (forall l, In l f' <-> In l f) -> ready k0 cs w n nv p f'.
Proof.
  intros k0 L cs b w n nv p f f' [[R1 R2 R3 R4 R5 R6 R7 R8 R9 R10 R11 R12] _ _ _ _] Tb Tw Ef Hf.
  assert (Ha : forall a, ax_all a f' <-> ax_all a f) by (intros a; split; intros H l Hl; apply H; apply Hf; exact Hl).
  constructor; try assumption.
  - intros l r Hl. apply R8. apply Hf. exact Hl.
  - destruct R9 as (a & H). exists a. apply Ha. exact H.
  - intros a H. apply R10. apply Ha. exact H.
  - eapply Forall_impl; [|exact R11]. intros c Hc Hlt a H. apply Hc; [exact Hlt|apply Ha; exact H].
  - rewrite Tw. rewrite Tb in R12. apply (up_to_same _ _ f); [exact Hf|exact R12].
Qed.
Lemma lasting_less : forall k0 L L' cs w me nv p f, incl L L' -> lasting k0 L' cs w me nv p f -> lasting k0 L cs w me nv p f.
Proof.
  intros k0 L L' cs w me nv p f H [R HL HB HC HU].
  assert (M : forall e, In e (rm_ids L' (k_all (kof k0 p))) -> In e (rm_ids L (k_all (kof k0 p)))).
  { intros e He. rewrite rm_in in *. destruct He as (He & Hd). split; [exact He|]. intros X. exact (Hd (H _ X)). }
  constructor; [exact R| | | |].
  - intros i Hi. exact (HL i (H _ Hi)).
  - intros key l d1 d2 G. destruct (HB _ _ _ _ G) as (N1 & N2). split; intros X; [exact (N1 (H _ X))|exact (N2 (H _ X))].
  - eapply Forall_impl; [|exact HC]. intros x. apply cobj_ok_mono. exact M.
  - apply (up_to_more (map snd (rm_ids L' (k_all (kof k0 p))))); [|exact HU]. intros x Hx. apply in_map_iff in Hx. destruct Hx as (e & <- & He). apply in_map. exact (M e He).
Qed.
Lemma block_run_ok : forall k0 n (sol : assignment -> Prop) cs nv p L done b w xs cl nv' p', (forall b, sol b -> total_to n b) -> run_ok k0 n sol (mkRst cs nv p L done) ->
  sol b -> (forall d, In d done -> better cs b d) -> truncate w n = b ->
  (forall f, fix_witness (map co_enc (for_sol cs b)) (map co_cost (for_sol cs b)) (ps_vmap p) b = Some f ->
     exists f', fix_witness (map co_enc (for_sol cs b)) (map co_cost (for_sol cs b)) (ps_vmap p) w = Some f' /\ forall l, In l f' <-> In l f) ->
  map fst xs = for_sol cs b ->
  (forall x, In x xs -> bound_pre (kof k0 p) nv (fst x) /\ (snd x = true -> co_cost (fst x) <= obj_lb (co_obj (fst x)))) ->
  (forall c, In c (for_sol cs b) -> co_cost c <= obj_lb (co_obj c) -> co_reform c <> None -> obj_unit_weight (co_obj c) = 1) ->
  block_candidate (map as_bobj xs) (for_sol cs b) w n nv p = Some (cl, nv', p') ->
  run_ok k0 n sol (mkRst cs nv' p' (pred (ps_next p') :: L) (b :: done)).
Proof.
  intros k0 n sol cs nv p L done b w xs cl nv' p' Hsol R Hb Hd Tw Hw Exs Hpre Huw E.
  pose proof R as [O1 O2 O3 O4 O5 O6 O7 O8 O9 O10 O11 O12 O13 O14 O15]. cbn [r_cs r_nv r_p r_del r_done] in *.
  destruct (O15 b Hb Hd) as (f & H). destruct (Hw f (rd_fix _ _ _ _ _ _ _ (la_ready _ _ _ _ _ _ _ _ H))) as (f' & Ef & Hf).
  pose proof (lasting_ready k0 L _ b w n nv p f f' H (total_trunc n b (Hsol b Hb)) Tw Ef Hf) as Rw.
  destruct (block_ok k0 (for_sol cs b) w n (for_sol_idx cs b O8) xs nv p f' Exs Rw Hpre Huw) as (cl0 & nv0 & p0 & E0 & Lnv & W & B & V & N & M & Or & Exl & (new & id & Ereg & Hreg) & Hno & _ & (ss & Elog) & Hnx & Hbd & Hco & Hla).
  rewrite E in E0. injection E0 as <- <- <-.
  assert (Hlt : forall e, In e (k_all (kof k0 p)) -> fst e < ps_next p).
  { intros e He. rewrite <- (wk_next _ _ O2). exact (proj2 (wk_ids _ _ O2) e He). }
  constructor; cbn [r_cs r_nv r_p r_del r_done]; try assumption.
  - rewrite Or. exact O1.
  - rewrite for_sol_obj in B. exact B.
  - lia.
  - apply (enc_fine_mono (rm_ids L (k_all (kof k0 p)))); [|exact O9]. intros e He. rewrite rm_in in *. destruct He as (He & Hn). split; [exact (M e He)|].
    pose proof (Hlt e He). intros [X|X]; [lia|exact (Hn X)].
  - intros i [<-|Hi]; [lia|]. pose proof (O10 i Hi). lia.
  - intros e He X. destruct (Hco e He) as (Hl & [Y|Y]); (destruct X as [X|X]; [lia|]); [exact (O11 e Y X)|]. pose proof (O10 _ X). lia.
  - intros key l d1 d2 G. destruct (Hbd _ _ _ _ G) as (L1 & L2 & [Y|(Y1 & Y2)]).
    + destruct (O12 _ _ _ _ Y) as (N1 & N2). split; (intros [X|X]; [lia|]); [exact (N1 X)|exact (N2 X)].
    + split; (intros [X|X]; [lia|pose proof (O10 _ X); lia]).
  - intros c i Hin. rewrite Ereg in Hin. apply in_app_or in Hin. destruct Hin as [Hin|Hin]; [exact (was_clause_more _ _ _ ss _ _ Elog (O13 c i Hin))|exact (was_clause_now _ _ _ _ _ (Hreg c i Hin) (same_self _))].
  - rewrite Exl, O14, Tw. reflexivity.
  - intros b' Hb' Hd'. destruct (O15 b' Hb' (fun d Hin => Hd' d (or_intror Hin))) as (g & G).
    exact (Hla L (for_sol cs b') b' n g (for_sol_same cs b b') G (for_sol_better cs b b' (Hd' b (or_introl eq_refl)))).
Qed.

(** ** The whole run *)
Theorem run_step_ok : forall k0 n (sol : assignment -> Prop) r r', (forall b, sol b -> total_to n b) -> run_ok k0 n sol r -> run_step k0 n sol r r' -> run_ok k0 n sol r'.
Proof.
  intros k0 n sol r r' Hsol R H. destruct H as [cs nv p L done s del H1 H2 H3|cs nv p L done ids H1|cs nv p L done c id C H1 H2|cs cs' nv p L done ts v H1 H2 H3 H4 H5 p1 p2 H6|cs cs' nv p L done H1 H2 H3|cs nv p L done b w xs cl nv' p' H1 H2 H3 H4 H5 H6 H7 H8].
  - exact (derive_ok k0 n sol cs nv p L done s del R H1 H2 H3).
  - exact (delete_ok k0 n sol cs nv p L done ids R H1).
  - exact (clause_ok k0 n sol cs nv p L done c id C R H1 H2).
  - exact (output_ok k0 n sol cs cs' nv p L done ts v Hsol R H1 H2 H3 H4 H5 H6).
  - exact (encoding_ok k0 n sol cs cs' nv p L done Hsol R H1 H2 H3).
  - exact (block_run_ok k0 n sol cs nv p L done b w xs cl nv' p' Hsol R H1 H2 H3 H4 H5 H6 H7 H8).
Qed.
Theorem runs_ok : forall k0 n (sol : assignment -> Prop) r r', (forall b, sol b -> total_to n b) -> run_ok k0 n sol r -> runs k0 n sol r r' -> run_ok k0 n sol r'.
Proof. intros k0 n sol r r' Hsol R H. induction H as [r|r1 r2 r3 H IH S]; [exact R|]. exact (run_step_ok k0 n sol r2 r3 Hsol (IH R) S). Qed.

(** ** The start *)
Lemma collect_sol : forall b x, var_value (collect_lits (sol_lits b)) x = var_value b x.
Proof.
  intros b x. unfold collect_lits. destruct (var_value b x) as [y|] eqn:E.
  - assert (Hin : In (mkLit x (negb y)) (sol_lits b)) by (apply sol_value; unfold lit_value; cbn [lvar lneg]; rewrite E; destruct y; reflexivity).
    pose proof (fold_assign_in (sol_lits b) [] _ (sol_lits_nodup b 0) Hin) as H. cbn [lvar lneg] in H. rewrite H, negb_involutive. reflexivity.
  - rewrite fold_assign; [unfold var_value; destruct x; reflexivity|]. intros H. apply in_lits_vars in H. destruct H as (l & Hl & <-).
    apply sol_value in Hl. unfold lit_value in Hl. rewrite E in Hl. discriminate.
Qed.
Lemma assigned_fold : forall ls f x, var_value f x <> None -> var_value (fold_left assign_lit ls f) x <> None.
Proof.
  induction ls as [|l ls IH]; intros f x H; [exact H|]. cbn [fold_left]. apply IH. unfold assign_lit. rewrite assign_at_value. destruct (x =? lvar l); [discriminate|exact H].
Qed.
(** variables of the instance may be used in the definitions of outputs *)
Lemma inst_summand : forall n (sol : assignment -> Prop) cs nv p x, (forall b, sol b -> total_to n b) -> x <= n -> n < nv -> ~ In (PVs x) (map (fun e => ax_var (fst e)) (ps_vmap p)) -> summand sol cs nv p x.
Proof.
  intros n sol cs nv p x Hs Hx Hn Hk. split; [lia|]. split; [exact Hk|]. intros b Hb. unfold ext_value, collect_lits. rewrite fold_left_app. apply assigned_fold.
  change (fold_left assign_lit (sol_lits b) []) with (collect_lits (sol_lits b)). rewrite collect_sol, (total_value n b x (Hs b Hb) Hx). discriminate.
Qed.
Lemma fix_witness_nil : forall encs costs b, (forall e, In e encs -> pe_extend e b = []) ->
  exists fw, fix_witness encs costs [] b = Some fw /\ forall l, In l fw <-> In l (map axiom (sol_lits b)).
Proof.
  intros encs costs b H. unfold fix_witness. cbn [value_fix]. eexists. split; [reflexivity|]. intros l. rewrite app_nil_r.
  assert (E : flat_map (fun e => pe_extend e b) encs = []).
  { induction encs as [|e encs IH]; [reflexivity|]. cbn [flat_map]. rewrite (H e (or_introl eq_refl)), IH; [reflexivity|]. intros x Hx. apply H. right. exact Hx. }
  rewrite E, app_nil_r. assert (Q : forall x, In x (sol_lits (collect_lits (sol_lits b))) <-> In x (sol_lits b)).
  { intros x. rewrite !sol_value. unfold lit_value. rewrite collect_sol. reflexivity. }
  split; intros X; apply in_map_iff in X; destruct X as (x & <- & X); apply in_map; apply Q; exact X.
Qed.
Lemma rm_nil : forall es : list entry, rm_ids [] es = es.
Proof. intros es. unfold rm_ids. induction es as [|e es IH]; [reflexivity|]. cbn. f_equal. exact IH. Qed.
Lemma build_lits : forall rs k o l w, In o (build_objs k rs) -> In (l, w) (obj_iter o) -> exists r w', In r rs /\ In (l, w') (fst r).
Proof.
  intros rs k o l w Ho Hl. apply build_In in Ho. destruct Ho as (r & j & Hr & ->). exists r. apply (in_map fst) in Hl. cbn [fst] in Hl.
  apply obj_new_lits in Hl. apply in_map_iff in Hl. destruct Hl as ([l' w'] & E & Q). cbn [fst] in E. subst l'. exists w'. split; assumption.
Qed.
Lemma build_idx : forall rs i o, nth_error (build_objs 0 rs) i = Some o -> obj_idx o = i.
Proof.
  intros rs i o H. rewrite build_nth in H. destruct (nth_error rs i) as [r|]; [|discriminate]. injection H as <-. cbn [Nat.add].
  unfold obj_new. destruct (fst r) as [|[l w] ls]; [reflexivity|]. destruct (existsb _ _); reflexivity.
Qed.
Lemma sat_ext : forall cls n a b, (forall c l, In c cls -> In l c -> lvar l <= n) -> (forall x, x <= n -> a x = b x) -> sat a cls -> sat b cls.
Proof.
  intros cls n a b Hc E H c Hin. specialize (H c Hin). unfold clause_true in *. apply existsb_exists in H. destruct H as (l & Hl & T).
  apply existsb_exists. exists l. split; [exact Hl|]. unfold lit_true in *. rewrite <- (E _ (Hc c l Hin Hl)). exact T.
Qed.
Theorem start_ok : forall n cls rs cs, inst_vars n cls rs -> map co_obj cs = build_objs 0 rs ->
  (forall c b, In c cs -> pe_extend (co_enc c) b = []) ->
  enc_fine (k_all (init_chk cls (build_objs 0 rs))) cs ->
  run_ok (init_chk cls (build_objs 0 rs)) n (inst_sol n cls) (start_run n cls cs).
Proof.
  intros n cls rs cs (Hcv & Hov) Eo Ext Hf. set (k0 := init_chk cls (build_objs 0 rs)) in *.
  assert (Hobj : forall c l w, In c cs -> In (l, w) (obj_iter (co_obj c)) -> lvar l <= n).
  { intros c l w Hc Hl. assert (X : In (co_obj c) (build_objs 0 rs)) by (rewrite <- Eo; apply in_map; exact Hc).
    destruct (build_lits rs 0 _ l w X Hl) as (r & w' & Hr & Hin). exact (Hov r l w' Hr Hin). }
  assert (Hord : k_order k0 = map obj_order (map co_obj cs)) by (rewrite Eo; apply order_fst).
  assert (Hent : forall e, In e (k_all k0) -> exists c, In c cls /\ snd e = clause_pb c).
  { intros [i x] He. unfold k_all, k0, init_chk in He. cbn [k_core k_der] in He. rewrite app_nil_r in He. apply number_in in He. destruct He as (_ & He).
    apply nth_error_In in He. apply in_map_iff in He. destruct He as (c & <- & Hc). exists c. split; [exact Hc|reflexivity]. }
  assert (Hnew : new_from k0 (mkPst (S (length cls)) 0 [] [] [] []) (S n)).
  { intros r Hr. split; [|intros []]. intros e He X. destruct (Hent e He) as (c & Hc & E). rewrite E in X. apply clause_pb_vars in X. apply in_map_iff in X.
    destruct X as (l & <- & Hl). pose proof (Hcv c l Hc Hl). lia. }
  pose proof (init_wok cls (build_objs 0 rs) []) as W. fold k0 in W.
  constructor; cbn [start_run r_cs r_nv r_p r_del r_done]; try assumption.
  - intros i v l d1 d2 H. discriminate.
  - intros x m [].
  - lia.
  - intros i c H. apply (build_idx rs). rewrite <- Eo. apply map_nth_error. exact H.
  - rewrite rm_nil. exact Hf.
  - intros i [].
  - intros e _ [].
  - intros key l d1 d2 H. discriminate.
  - intros c id [].
  - reflexivity.
  - intros b (T & Hsat) _.
    destruct (fix_witness_nil (map co_enc (for_sol cs b)) (map co_cost (for_sol cs b)) b) as (fw & Ef & Hfw).
    { intros e He. rewrite for_sol_enc in He. apply in_map_iff in He. destruct He as (c & <- & Hc). exact (Ext c b Hc). }
    assert (Hval : forall a, ax_all a fw -> forall x, x <= n -> a (PVs x) = asg_of b x).
    { intros a Ha x Hx. assert (X : ax_true a (axiom (mkLit x (negb (asg_of b x)))) = true) by (apply Ha; apply Hfw; apply in_map; apply (total_lit n); assumption).
      unfold ax_true in X. cbn [axiom ax_var ax_neg lvar lneg] in X. destruct (asg_of b x), (a (PVs x)); cbn in X; congruence. }
    assert (Hcost : forall a, ax_all a fw -> forall c, In c cs -> icost (co_obj c) (on_solver a) = icost (co_obj c) (asg_of b)).
    { intros a Ha c Hc. apply (cost_of _ n); [intros l w; exact (Hobj c l w Hc)|exact (Hval a Ha)]. }
    assert (Hph : forall a, ax_all a fw -> proof_holds a k0).
    { intros a Ha e He. destruct (Hent e He) as (c & Hc & ->). apply clause_pb_holds.
      apply (sat_ext cls n (asg_of b) (on_solver a) Hcv); [|exact Hsat|exact Hc]. intros x Hx. unfold on_solver. symmetry. exact (Hval a Ha x Hx). }
    assert (Hup : forall ds : list pconstr, up_to ds (map axiom (sol_lits (truncate b n))) fw).
    { intros ds. rewrite (total_trunc n b T). apply upt_done. exact Hfw. }
    exists fw. constructor; [constructor| | | |]; try assumption.
    + rewrite for_sol_obj. exact Hord.
    + intros i v l d1 d2 H. discriminate.
    + intros x m [].
    + rewrite <- for_sol_ok. exact (proj1 Hf).
    + intros l r Hl E. apply Hfw in Hl. apply in_map_iff in Hl. destruct Hl as (x & <- & Hx). cbn [axiom ax_var] in E. injection E as <-.
      apply sol_value in Hx. unfold lit_value, var_value in Hx. destruct (nth_error b (lvar x)) as [t|] eqn:En; [|discriminate].
      assert (lvar x < length b) by (apply nth_error_Some; congruence). destruct T as (T & _). lia.
    + exists (fun v => match v with PVs x => asg_of b x | PVp _ => false end). intros l Hl. apply Hfw in Hl. apply in_map_iff in Hl. destruct Hl as (x & <- & Hx).
      apply sol_value in Hx. unfold lit_value in Hx. unfold ax_true, asg_of. cbn [axiom ax_var ax_neg]. destruct (var_value b (lvar x)) as [y|]; [|discriminate].
      cbn [is_true]. injection Hx as Hx. destruct y, (lneg x); cbn in *; congruence.
    + intros a Ha. split; [exact (Hph a Ha)|]. intros c Hc. apply for_sol_in in Hc. destruct Hc as (c0 & Hc0 & ->). exact (Hcost a Ha c0 Hc0).
    + apply Forall_forall. intros c Hc. apply for_sol_in in Hc. destruct Hc as (c0 & Hc0 & ->). intros Hlt a Ha. cbn [co_obj co_cost co_enc] in *.
      rewrite <- (Hcost a Ha c0 Hc0) in *. apply (proj2 Hf c0 Hc0 a); [exact (Hph a Ha)|exact Hlt].
    + apply Hup.
    + intros i [].
    + intros key l d1 d2 H. discriminate.
    + rewrite rm_nil, <- for_sol_ok. exact (proj1 Hf).
    + apply Hup.
Qed.

(** ** What a run leaves *)
Lemma run_extends : forall k0 n (sol : assignment -> Prop) r b, (forall b, sol b -> total_to n b) -> run_ok k0 n sol r -> sol b -> (forall d, In d (r_done r) -> better (r_cs r) b d) ->
  exists a, proof_holds a (kof k0 (r_p r)) /\ forall x, x <= n -> a (PVs x) = asg_of b x.
Proof.
  intros k0 n sol r b Hsol R Hb Hd. destruct (ro_sols _ _ _ _ R b Hb Hd) as (fw & H). destruct (rd_ex _ _ _ _ _ _ _ (la_ready _ _ _ _ _ _ _ _ H)) as (a & Ha).
  exists a. split; [exact (proj1 (rd_sat _ _ _ _ _ _ _ (la_ready _ _ _ _ _ _ _ _ H) a Ha))|]. intros x Hx. exact (lasting_vals _ _ _ _ _ _ _ _ a x H (Hsol b Hb) Ha Hx).
Qed.
Lemma better_dec : forall cs b d, better cs b d \/ forall c, In c cs -> icost (co_obj c) (asg_of d) <= icost (co_obj c) (asg_of b).
Proof.
  intros cs b d. induction cs as [|c cs IH]; [right; intros c []|]. destruct (Nat.lt_ge_cases (icost (co_obj c) (asg_of b)) (icost (co_obj c) (asg_of d))) as [H|H].
  - left. exists c. split; [left; reflexivity|exact H].
  - destruct IH as [(x & Hx & Hl)|IH]; [left; exists x; split; [right; exact Hx|exact Hl]|]. right. intros x [<-|Hx]; [exact H|exact (IH x Hx)].
Qed.
Lemma done_dec : forall cs b done, (forall d, In d done -> better cs b d) \/ exists d, In d done /\ forall c, In c cs -> icost (co_obj c) (asg_of d) <= icost (co_obj c) (asg_of b).
Proof.
  intros cs b done. induction done as [|d done IH]; [left; intros d []|]. destruct (better_dec cs b d) as [H|H]; [|right; exists d; split; [left; reflexivity|exact H]].
  destruct IH as [IH|(x & Hx & Hl)]; [left; intros x [<-|Hx]; [exact H|exact (IH x Hx)]|]. right. exists x. split; [right; exact Hx|exact Hl].
Qed.
Lemma runs_done : forall k0 n (sol : assignment -> Prop) r r', runs k0 n sol r r' -> map co_obj (r_cs r') = map co_obj (r_cs r) /\
  forall d, In d (r_done r') -> In d (r_done r) \/ sol d.
Proof.
  intros k0 n sol r r' H. induction H as [r|r1 r2 r3 H IH S]; [split; [reflexivity|intros d Hd; left; exact Hd]|]. destruct IH as (E & D).
  destruct S as [cs nv p L done s del H1 H2 H3|cs nv p L done ids H1|cs nv p L done c id C H1 H2|cs cs' nv p L done ts v H1 H2 H3 H4 H5 p1 p2 H6|cs cs' nv p L done H1 H2 H3|cs nv p L done b w xs cl nv' p' H1 H2 H3 H4 H5 H6 H7 H8];
    cbn [r_cs r_done] in *; (split; [congruence|]); try exact D. intros d [<-|Hd]; [right; exact H1|exact (D d Hd)].
Qed.
Definition as_sol (n : nat) (a : asg) : assignment := map (fun v => Some (a v)) (seq 0 (S n)).
Lemma as_sol_val : forall n a x, x <= n -> asg_of (as_sol n a) x = a x.
Proof.
  intros n a x Hx. unfold asg_of, as_sol, var_value. rewrite nth_error_map. assert (E : nth_error (seq 0 (S n)) x = Some x).
  { rewrite (nth_error_nth' _ 0) by (rewrite seq_length; lia). rewrite seq_nth by lia. reflexivity. }
  rewrite E. cbn [option_map]. destruct (a x); reflexivity.
Qed.
Lemma as_sol_total : forall n a, total_to n (as_sol n a).
Proof. intros n a. unfold total_to, as_sol. rewrite map_length, seq_length. split; [reflexivity|]. intros x Hx. apply in_map_iff in Hx. destruct Hx as (v & <- & _). discriminate. Qed.
