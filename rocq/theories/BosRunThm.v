(** * The proof of a whole BiOptSat run *)
From Coq Require Import List Arith ZArith Lia Bool.
From Verif Require Import Spec ApiSpec Base BaseLemmas Sem Ext Blk ApiTop MTypes MPMinimal MPrepro ReindexThm VeriPB VeriThm MProofs ProofThm ProofRun ProofCut MTracer TracerThm ReformSpec ReformThm ReformRun MProofAlg ReifSpec ReifThm ReifRun ProofCert ProofFin LinsuCert BlockSpec BlockThm BosSpec BosThm PropBos RunSpec RunThm RunSol BosRunSpec.
Import ListNotations.
Local Open Scope nat_scope.

(** ** What the lines leave *)
Lemma bos_imps_grows : forall V e fi inc as_ val p imps p', bos_imps e fi inc as_ val p = Some (imps, p') -> grows V p p'.
Proof.
  intros V e fi inc as_. induction as_ as [|a r IH]; intros val p imps p' E; cbn [bos_imps] in E.
  - injection E as _ <-. apply grows_refl.
  - destruct (pe_details e val) as [[olit [i [oi|]]]|]; try discriminate. destruct (lit_eqb a (lnot olit)); [|discriminate].
    match type of E with (let '(_, _) := ?x in _) = _ => destruct x as [imp q] eqn:E1 end.
    destruct (bos_imps e fi inc r (pe_next_higher e val) q) as [[imps' q']|] eqn:E2; [|discriminate]. injection E as _ <-.
    refine (grows_trans _ _ _ _ (grows_eq V _ _ _ _ E1 _) (IH _ _ _ _ E2)). intros x [].
Qed.
Lemma bos_shorten_grows : forall V e inc as_ lb p lb' p', bos_shorten e inc as_ lb p = Some (lb', p') -> grows V p p' /\ forall i, lb' = Some i -> lb = Some i \/ ps_next p <= i.
Proof.
  intros V e inc as_ lb p lb' p' E. unfold bos_shorten in E. destruct (pe_details e (pe_next_higher e inc)) as [[fo [fi oi]]|]; [|discriminate].
  assert (Q : forall todo, match fi, lb with
          | Some fi, Some lb =>
              match bos_imps e fi inc todo (pe_next_higher e (pe_next_higher e inc)) p with
              | None => None
              | Some (imps, p) =>
                  let '(short, p) := wr_id (SPol (shorten_pol lb imps)) p in
                  Some (Some short, wr (SDel (map CAbs imps) []) p)
              end
          | _, _ => None
          end = Some (lb', p') -> grows V p p' /\ forall i, lb' = Some i -> lb = Some i \/ ps_next p <= i).
  { intros todo H. destruct fi as [fi|]; [|discriminate]. destruct lb as [lb|]; [|discriminate].
    destruct (bos_imps e fi inc todo (pe_next_higher e (pe_next_higher e inc)) p) as [[imps q]|] eqn:E1; [|discriminate]. apply (bos_imps_grows V) in E1.
    destruct (wr_id (SPol (shorten_pol lb imps)) q) as [short q2] eqn:E2. injection H as <- <-. split.
    - refine (grows_trans _ _ _ _ E1 (grows_trans _ _ _ _ (grows_eq V _ _ _ _ E2 _) _)); [intros x []|apply grows_wr; intros x []].
    - intros i Hi. injection Hi as <-. right. unfold wr_id in E2. injection E2 as <- _. exact (gs_next _ _ _ E1). }
  destruct as_ as [|a [|a2 r]].
  - injection E as <- <-. split; [apply grows_refl|]. intros i Hi. left. exact Hi.
  - destruct (lit_eqb a (lnot fo)); [|discriminate]. injection E as <- <-. split; [apply grows_refl|]. intros i Hi. left. exact Hi.
  - exact (Q _ E).
Qed.
Lemma bos_cut_grows : forall V e inc il id c l pmin p cut p', bos_cut e inc il id c l pmin p = Some (cut, p') -> grows V p p' /\ (cut = pmin \/ ps_next p <= cut).
Proof.
  intros V e inc il id c l pmin p cut p' E. unfold bos_cut in E. destruct (inc <=? pe_offset e).
  { injection E as <- <-. split; [apply grows_refl|left; reflexivity]. }
  assert (Q : forall lb q, grows V p q -> (let '(id, p) := wr_id (SPol (PAdd (PC (CAbs lb)) (PC (CAbs pmin)))) q in Some (id, p)) = Some (cut, p') -> grows V p p' /\ (cut = pmin \/ ps_next p <= cut)).
  { intros lb q G H. destruct (wr_id (SPol (PAdd (PC (CAbs lb)) (PC (CAbs pmin)))) q) as [i q2] eqn:E2. injection H as <- <-. split.
    - refine (grows_trans _ _ _ _ G (grows_eq V _ _ _ _ E2 _)). intros x [].
    - right. unfold wr_id in E2. injection E2 as <- _. exact (gs_next _ _ _ G). }
  destruct (inc =? il).
  - destruct c as [c|]; [|discriminate]. destruct l as [l|]; [|discriminate].
    destruct (wr_id (SPol (PAdd (PC (CAbs c)) (PC (CAbs l)))) p) as [i q] eqn:E1. apply (Q i q); [|exact E]. apply (grows_eq V _ _ _ _ E1). intros x [].
  - destruct id as [id|]; [|discriminate]. exact (Q id p (grows_refl V p) E).
Qed.
Lemma bos_add_rest_grows : forall V e fi dec cut as_ val p p', bos_add_rest e fi dec cut as_ val p = Some p' -> grows V p p'.
Proof.
  intros V e fi dec cut as_. induction as_ as [|a r IH]; intros val p p' E; cbn [bos_add_rest] in E.
  - injection E as <-. apply grows_refl.
  - destruct (pe_details e (pe_next_higher e val)) as [[olit [i [oi|]]]|]; try discriminate. destruct (lit_eqb a (lnot olit)); [|discriminate].
    match type of E with (let '(_, _) := ?x in _) = _ => destruct x as [imp q] eqn:E1 end.
    match type of E with (let '(_, _) := ?x in _) = _ => destruct x as [id q2] eqn:E2 end.
    apply IH in E. refine (grows_trans _ _ _ _ _ E).
    refine (grows_trans _ _ _ _ (grows_eq V _ _ _ _ E1 _) _); [intros x []|].
    refine (grows_trans _ _ _ _ (grows_eq V _ _ _ _ E2 _) _); [intros x []|].
    eapply grows_trans; [apply grows_cert|]. apply grows_wr. intros x [].
Qed.
Lemma bos_add_grows : forall V e dec cut p p', bos_add e dec cut p = Some p' -> grows V p p'.
Proof.
  intros V e dec cut p p' E. unfold bos_add in E. destruct (pe_enforce_ub e (dec - 1)) as [[|a r]|]; try discriminate.
  destruct (pe_details e dec) as [[fo [fi oi]]|]; [|discriminate]. destruct (lit_eqb a (lnot fo)); [|discriminate].
  refine (grows_trans _ _ _ _ (grows_cert V [a] cut p) _). destruct r as [|a2 r]; [injection E as <-; apply grows_refl|].
  destruct fi as [fi|]; [|discriminate]. exact (bos_add_rest_grows V _ _ _ _ _ _ _ _ E).
Qed.
Lemma lb_imps_grows : forall V e fuel fi cost core val p imps p', lb_imps e fuel fi cost core val p = Some (imps, p') -> grows V p p'.
Proof.
  intros V e fuel fi cost core. induction core as [|c r IH]; intros val p imps p' E; cbn [lb_imps] in E.
  - injection E as _ <-. apply grows_refl.
  - destruct (find_out e false c fuel val) as [[v [oi|]]|]; try discriminate.
    match type of E with (let '(_, _) := ?x in _) = _ => destruct x as [imp q] eqn:E1 end.
    destruct (lb_imps e fuel fi cost r (pe_next_higher e v) q) as [[imps' q']|] eqn:E2; [|discriminate]. injection E as _ <-.
    refine (grows_trans _ _ _ _ (grows_eq V _ _ _ _ E1 _) (IH _ _ _ _ E2)). intros x [].
Qed.
Lemma linsu_cert_grows : forall V e fuel base cost core core_id p id p' first s, linsu_cert e fuel base cost core core_id p = Some (id, p') ->
  pe_details e cost = Some (first, s) -> incl (map lvar (base ++ [first])) V -> grows V p p'.
Proof.
  intros V e fuel base cost core core_id p id p' first s E Ed Hi. unfold linsu_cert in E. destruct (skip_base base core) as [rest|]; [|discriminate].
  rewrite Ed in E. destruct s as [fi oi].
  assert (Q : match rest with
      | [] => None
      | c :: r =>
          let todo := if lit_eqb c first then r else rest in
          match (match todo, fi with
                 | [], _ => Some ([], p)
                 | _, Some fi => lb_imps e fuel fi cost todo cost p
                 | _, None => None
                 end) with
          | None => None
          | Some (imps, p) =>
              match imps, base with
              | [], [] => Some (core_id, p)
              | _, _ =>
                  let '(id, p) := wr_id (SRup (clause_pb (map lnot base ++ [first])) (map CAbs (imps ++ [core_id]))) p in
                  let p := match imps with [] => p | _ => wr (SDel (map CAbs imps) []) p end in
                  Some (id, p)
              end
          end
      end = Some (id, p') -> grows V p p').
  { clear E. intros E. destruct rest as [|c r]; [discriminate|]. cbv zeta in E. set (todo := if lit_eqb c first then r else c :: r) in *.
    match type of E with match ?x with _ => _ end = _ => destruct x as [[imps q]|] eqn:E1; [|discriminate] end.
    assert (G1 : grows V p q).
    { destruct todo as [|t todo']; [injection E1 as _ <-; apply grows_refl|]. destruct fi as [fi|]; [|discriminate]. exact (lb_imps_grows V _ _ _ _ _ _ _ _ _ E1). }
    assert (Hv : forall hs r, In (PVs r) (step_vars (SRup (clause_pb (map lnot base ++ [first])) hs)) -> In r V).
    { intros hs x X. cbn [step_vars] in X. apply clause_pb_vars in X. apply Hi. rewrite map_app in *. rewrite map_map in X. exact X. }
    destruct imps as [|i imps]; destruct base as [|b base].
    - injection E as _ <-. exact G1.
    - match type of E with (let '(_, _) := ?x in _) = _ => destruct x as [i2 q2] eqn:E2 end. injection E as _ <-.
      exact (grows_trans _ _ _ _ G1 (grows_eq V _ _ _ _ E2 (Hv _))).
    - match type of E with (let '(_, _) := ?x in _) = _ => destruct x as [i2 q2] eqn:E2 end. injection E as _ <-.
      refine (grows_trans _ _ _ _ G1 (grows_trans _ _ _ _ (grows_eq V _ _ _ _ E2 (Hv _)) _)). apply grows_wr. intros x [].
    - match type of E with (let '(_, _) := ?x in _) = _ => destruct x as [i2 q2] eqn:E2 end. injection E as _ <-.
      refine (grows_trans _ _ _ _ G1 (grows_trans _ _ _ _ (grows_eq V _ _ _ _ E2 (Hv _)) _)). apply grows_wr. intros x []. }
  destruct core as [|c [|c2 core]]; [exact (Q E)| |exact (Q E)]. destruct (lit_eqb c first); [|discriminate]. injection E as _ <-. apply grows_refl.
Qed.

(** ** Lines over old variables that keep all constraints *)
Lemma frame_run_ok : forall k0 n (sol : assignment -> Prop) cs nv p L done V p' D, run_ok k0 n sol (mkRst cs nv p L done) -> frame k0 p p' -> grows V p p' ->
  (forall v, In v V -> v < nv) -> (forall x, In x D -> ps_next p <= x < ps_next p') ->
  (forall c id, In (c, id) (ps_reg p') -> In (c, id) (ps_reg p) \/ exists C, In (id, C) (k_all (kof k0 p')) /\ lb_same pv_eqd C (clause_pb c)) ->
  run_ok k0 n sol (mkRst cs nv p' (D ++ L) done) /\ forall e, In e (rm_ids L (k_all (kof k0 p))) -> In e (rm_ids (D ++ L) (k_all (kof k0 p'))).
Proof.
  intros k0 n sol cs nv p L done V p' D R F G HV HD Hreg. pose proof R as [O1 O2 O3 O4 O5 O6 O7 O8 O9 O10 O11 O12 O13 O14 O15]. cbn [r_cs r_nv r_p r_del r_done] in *.
  assert (Hlt : forall e, In e (k_all (kof k0 p)) -> fst e < ps_next p).
  { intros e He. rewrite <- (wk_next _ _ O2). exact (proj2 (wk_ids _ _ O2) e He). }
  assert (M : forall e, In e (rm_ids L (k_all (kof k0 p))) -> In e (rm_ids (D ++ L) (k_all (kof k0 p')))).
  { intros e He. rewrite rm_in in *. destruct He as (He & Hd). split; [exact (fr_old _ _ _ F e He)|]. intros X. apply in_app_or in X. destruct X as [X|X]; [|exact (Hd X)].
    pose proof (HD _ X). pose proof (Hlt e He). lia. }
  split; [|exact M].
  apply (run_same k0 n sol cs nv p L done p' (D ++ L) R (fr_wok _ _ _ F)); try assumption.
  - apply (bounds_mono k0 _ p _ O3); [exact (fr_bounds _ _ _ F)|exact (fr_old _ _ _ F)|]. intros x Hx. rewrite (fr_vmap _ _ _ F). exact Hx.
  - intros x m Hx Em. rewrite (fr_vmap _ _ _ F) in Hx. rewrite (fr_nextvar _ _ _ F). exact (O4 x m Hx Em).
  - intros r Hr. destruct (O5 r Hr) as (U1 & U2). split; [exact U1|]. intros X. destruct (gs_vars _ _ _ G r X) as [Y|Y]; [exact (U2 Y)|]. pose proof (HV r Y). lia.
  - exact (fr_order _ _ _ F).
  - exact (fr_excl _ _ _ F).
  - exact (fr_vmap _ _ _ F).
  - exact (gs_log _ _ _ G).
  - intros i Hi. apply in_app_or in Hi. destruct Hi as [Hi|Hi]; [exact (proj2 (HD i Hi))|]. pose proof (O10 i Hi). pose proof (gs_next _ _ _ G). lia.
  - intros e He X. rewrite (fr_core _ _ _ F) in He. assert (Hin : In e (k_all (kof k0 p))) by (apply in_k_all; left; exact He). pose proof (Hlt e Hin).
    apply in_app_or in X. destruct X as [X|X]; [pose proof (HD _ X); lia|exact (O11 e He X)].
  - intros key l d1 d2 Gb. rewrite (fr_bounds _ _ _ F) in Gb. destruct (O12 _ _ _ _ Gb) as (N1 & N2). destruct key as [i v]. destruct (O3 _ _ _ _ _ Gb) as (o & m & _ & _ & _ & I1 & I2 & _).
    pose proof (Hlt _ I1) as L1. pose proof (Hlt _ I2) as L2. cbn [fst] in L1, L2. split; intros X; (apply in_app_or in X; destruct X as [X|X]; [pose proof (HD _ X); lia|]); [exact (N1 X)|exact (N2 X)].
  - exact (fr_sound _ _ _ F).
Qed.

(** ** The cut of a solution *)
Lemma cut_run_ok : forall k0 n (sol : assignment -> Prop) cs nv p L done b w ds, (forall b, sol b -> total_to n b) -> run_ok k0 n sol (mkRst cs nv p L done) ->
  sol b -> (forall d, In d done -> better cs b d) -> witness_of cs n p b w ->
  (forall c, In c (for_sol cs b) -> co_cost c <= obj_lb (co_obj c) -> co_reform c <> None -> obj_unit_weight (co_obj c) = 1) ->
  cut_data (for_sol cs b) p = Some (ds, p) -> (forall l r, In l (cut_lits ds) -> ax_var l = PVs r -> r < nv) ->
  exists id p', certify_pmin_cut (for_sol cs b) w n p = Some (id, p') /\ run_ok k0 n sol (mkRst cs nv p' L (b :: done)) /\ ps_reg p' = ps_reg p /\
    In (id, lb_clause (cut_lits ds)) (rm_ids L (k_all (kof k0 p'))) /\ ps_next p <= id /\ ps_next p <= ps_next p' /\
    (forall e, In e (k_all (kof k0 p)) -> In e (k_all (kof k0 p'))) /\ forall e, In e (rm_ids L (k_all (kof k0 p))) -> In e (rm_ids L (k_all (kof k0 p'))).
Proof.
  intros k0 n sol cs nv p L done b w ds Hsol R Hb Hd (Tw & Hw) Huw Ed Hcv.
  pose proof R as [O1 O2 O3 O4 O5 O6 O7 O8 O9 O10 O11 O12 O13 O14 O15]. cbn [r_cs r_nv r_p r_del r_done] in *.
  destruct (O15 b Hb Hd) as (f & H). destruct (Hw f (rd_fix _ _ _ _ _ _ _ (la_ready _ _ _ _ _ _ _ _ H))) as (f' & Ef & Hf).
  pose proof (lasting_ready k0 L _ b w n nv p f f' H (total_trunc n b (Hsol b Hb)) Tw Ef Hf) as [R1 R2 R3 R4 R5 R6 R7 R8 R9 R10 R11 R12].
  destruct (certify_pmin_cut (for_sol cs b) w n p) as [[id p']|] eqn:Ec.
  2:{ exfalso. unfold certify_pmin_cut in Ec. rewrite Ed, R7 in Ec. unfold wr_id in Ec. discriminate. }
  destruct (certify_cut_full k0 (for_sol cs b) w n p f' id p' R1 (for_sol_idx cs b O8) R2 R3 R4 R6 Huw R7 R9) as (W2 & B2 & V2 & Or2 & E2 & M2 & G2 & cut & (ds' & p1' & Ed' & Ecut & Hall) & Icut & _ & Hbetter); try assumption.
  rewrite Ed in Ed'. injection Ed' as <- <-. subst cut.
  assert (Hp12 : exists ss, ps_log p' = ps_log p ++ ss /\ ps_vmap p' = ps_vmap p /\ ps_bounds p' = ps_bounds p /\ ps_nextvar p' = ps_nextvar p /\ ps_next p <= ps_next p' /\ ps_next p <= id /\
    forall e, In e (k_core (kof k0 p')) -> In e (k_core (kof k0 p)) \/ ps_next p <= fst e).
  { pose proof Ec as Ec'. unfold certify_pmin_cut in Ec'. rewrite Ed, R7 in Ec'. unfold wr_id, wr in Ec'. cbn [ps_next ps_nextvar ps_log ps_vmap ps_bounds ps_reg] in Ec'. injection Ec' as <- <-.
    cbn [ps_next ps_nextvar ps_log ps_vmap ps_bounds ps_reg]. rewrite <- !app_assoc. eexists. split; [reflexivity|]. repeat (split; [reflexivity|]). split; [lia|]. split; [lia|].
    intros e He. unfold kof in He. cbn [ps_log] in He. rewrite steps_next_app in He. fold (kof k0 p) in He. cbn [steps_next step_next k_core k_der k_next add_der] in He.
    apply rm_ids_in in He. apply in_app_or in He. destruct He as [He|[<-|He]].
    - right. unfold pick_ids in He. apply filter_In in He. destruct He as (_ & He). cbn [map cid_abs existsb] in He. rewrite orb_false_r in He. apply Nat.eqb_eq in He. lia.
    - right. cbn [fst]. cbn [step_next add_der k_next]. rewrite (wk_next _ _ R2). lia.
    - left. exact He. }
  destruct Hp12 as (ss12 & Elog & Evm & Ebd & Env & Enx & Eid & Eco).
  assert (Hlt : forall e, In e (k_all (kof k0 p)) -> fst e < ps_next p).
  { intros e He. rewrite <- (wk_next _ _ O2). exact (proj2 (wk_ids _ _ O2) e He). }
  assert (M3 : forall e, In e (rm_ids L (k_all (kof k0 p))) -> In e (rm_ids L (k_all (kof k0 p')))).
  { intros e He. rewrite rm_in in *. destruct He as (He & X). split; [exact (M2 e He)|exact X]. }
  assert (Hnew : new_from k0 p' nv).
  { intros r Hr. destruct (O5 r Hr) as (U1 & U2). split; [exact U1|]. intros Y. apply U2.
    assert (Hfwv : forall l, In l f' -> ax_var l <> PVs r) by (intros l Hl E; pose proof (R8 l r Hl E); lia).
    assert (Hcv' : forall l, In l (cut_lits ds) -> ax_var l <> PVs r) by (intros l Hl E; pose proof (Hcv l r Hl E); lia).
    unfold certify_pmin_cut in Ec. rewrite Ed, R7 in Ec. unfold wr_id, wr in Ec. cbn [ps_next ps_nextvar ps_log ps_vmap ps_bounds ps_reg] in Ec. injection Ec as _ <-.
    cbn [ps_log] in Y. rewrite !flat_map_app in Y. rewrite !in_app_iff in Y. cbn [flat_map step_vars In] in Y. rewrite !app_nil_r in Y.
    destruct Y as [[[[[Y|Y]|Y]|Y]|Y]|Y]; [exact Y| | | |destruct Y|destruct Y]; exfalso.
    - unfold cvars, map_dom_constr in Y. cbn [lb_terms] in Y. rewrite map_app, !map_map in Y. cbn [snd] in Y. apply in_app_or in Y.
      destruct Y as [Y|Y]; apply in_map_iff in Y; destruct Y as (l & E & Hl); [exact (Hfwv l Hl E)|exact (Hcv' l Hl E)].
    - apply in_map_iff in Y. destruct Y as (l & E & Hl). exact (Hfwv l Hl E).
    - apply lb_clause_vars in Y. apply in_map_iff in Y. destruct Y as (l & E & Hl). exact (Hcv' l Hl E). }
  rewrite for_sol_obj in B2.
  exists id, p'. split; [reflexivity|]. split; [|split; [exact G2|split; [|split; [exact Eid|split; [exact Enx|split; [exact M2|exact M3]]]]]].
  2:{ apply rm_in. split; [apply in_k_all; left; exact Icut|]. cbn [fst]. intros X. pose proof (O10 _ X). lia. }
  constructor; cbn [r_cs r_nv r_p r_del r_done]; try assumption.
  - rewrite Or2. exact O1.
  - exact (enc_fine_mono _ _ _ M3 O9).
  - intros i Hi. pose proof (O10 i Hi). lia.
  - intros e He X. destruct (Eco e He) as [Y|Y]; [exact (O11 e Y X)|]. pose proof (O10 _ X). lia.
  - intros key l d1 d2 G. rewrite Ebd in G. exact (O12 _ _ _ _ G).
  - intros c i Hin. rewrite G2 in Hin. exact (was_clause_more _ _ _ ss12 _ _ Elog (O13 c i Hin)).
  - rewrite E2, O14, Tw. reflexivity.
  - intros b' Hb' Hd'. destruct (O15 b' Hb' (fun d Hin => Hd' d (or_intror Hin))) as (g & La). exists g.
    apply (lasting_gen k0 L L (for_sol cs b') b' n nv nv p p' g La); try assumption.
    + rewrite for_sol_obj. exact B2.
    + lia.
    + intros i Hi. pose proof (O10 i Hi). lia.
    + intros key l d1 d2 G. rewrite Ebd in G. exact (O12 _ _ _ _ G).
    + intros a Ha Hp. destruct (rd_sat _ _ _ _ _ _ _ (la_ready _ _ _ _ _ _ _ _ La) a Ha) as (_ & Hco).
      intros e He. apply Hall in He. destruct He as [->|He]; [|exact (Hp e He)]. cbn [snd]. apply Hbetter.
      * intros e He Hne. apply Hall in He. destruct He as [->|He]; [contradiction Hne; reflexivity|exact (Hp e He)].
      * destruct (Hd' b (or_introl eq_refl)) as (c & Hc & Hl). exists (mkCobj (co_enc c) (co_obj c) (co_reform c) (icost (co_obj c) (asg_of b))). split.
        -- unfold for_sol. apply (in_map (fun c => mkCobj (co_enc c) (co_obj c) (co_reform c) (icost (co_obj c) (asg_of b)))). exact Hc.
        -- cbn [co_obj co_cost]. pose proof (Hco (mkCobj (co_enc c) (co_obj c) (co_reform c) (icost (co_obj c) (asg_of b')))) as X. cbn [co_obj co_cost] in X. rewrite X; [exact Hl|].
           unfold for_sol. apply (in_map (fun c => mkCobj (co_enc c) (co_obj c) (co_reform c) (icost (co_obj c) (asg_of b')))). exact Hc.
Qed.

(** ** Kept clauses *)
Lemma kept_mono : forall k k' L L' id ls, (forall e, In e (rm_ids L (k_all k)) -> In e (rm_ids L' (k_all k'))) -> kept_clause k L id ls -> kept_clause k' L' id ls.
Proof. intros k k' L L' id ls M (C & I & H). exists C. split; [exact (M _ I)|exact H]. Qed.
Lemma kept_derived : forall k L id ls, kept_clause k L id ls <-> derived k id ls /\ ~ In id L.
Proof.
  intros k L id ls. split.
  - intros (C & I & H). apply rm_in in I. destruct I as (I & N). split; [exists C; split; assumption|exact N].
  - intros ((C & I & H) & N). exists C. split; [|exact H]. apply rm_in. split; assumption.
Qed.
Lemma same_units : forall (k : chk) as_ new c id, reg_units k as_ new -> In (c, id) new -> exists C, In (id, C) (k_all k) /\ lb_same pv_eqd C (clause_pb c).
Proof.
  intros k as_ new c id (E & H) Hin. destruct (H c id Hin) as (C & IC & HC). exists C. split; [exact IC|].
  assert (X : In c (map (fun a => [a]) as_)) by (rewrite <- E; apply (in_map fst) in Hin; exact Hin). apply in_map_iff in X. destruct X as (a & <- & _).
  apply (clausal_same _ _ _ HC). unfold clause_pb. apply clause_proper. repeat constructor. intros [].
Qed.
Lemma step_keeps : forall k0 n (sol : assignment -> Prop) r r', run_ok k0 n sol r -> run_step k0 n sol r r' -> r_done r' = r_done r ->
  forall e, In e (rm_ids (r_del r) (k_all (kof k0 (r_p r)))) -> In e (rm_ids (r_del r') (k_all (kof k0 (r_p r')))).
Proof.
  intros k0 n sol r r' R S. destruct S as [cs nv p L done s del H1 H2 H3|cs nv p L done ids H1|cs nv p L done c id C H1 H2|cs cs' nv p L done ts v H1 H2 H3 H4 H5 p1 p2 H6|cs cs' nv p L done H1 H2 H3|cs nv p L done b w xs cl nv' p' H1 H2 H3 H4 H5 H6 H7 H8]; cbn [r_p r_del r_done];
    pose proof R as [O1 O2 O3 O4 O5 O6 O7 O8 O9 O10 O11 O12 O13 O14 O15]; cbn [r_cs r_nv r_p r_del r_done] in *; intros Ed e He.
  - destruct (derive_line _ s H1 H2) as (c & E & Hc & Hcv). rewrite rm_in in *. destruct He as (He & Hd).
    assert (Hlt : fst e < ps_next p) by (rewrite <- (wk_next _ _ O2); exact (proj2 (wk_ids _ _ O2) e He)). split.
    + rewrite kof_wr_id, E. apply in_add_der. right. exact He.
    + destruct del; [|exact Hd]. intros [X|X]; [lia|exact (Hd X)].
  - destruct (wok_del k0 p ids O2) as (W & A & _).
    { intros i C Hin X. exact (O11 _ X (H1 _ Hin)). }
    destruct e as [i D]. rewrite rm_in in *. destruct He as (He & Hd). split; [|exact Hd]. apply A. split; [exact He|]. intros X. exact (Hd (H1 _ X)).
  - exact He.
  - rewrite rm_in in *. destruct He as (He & Hd). split; [|exact Hd]. unfold p2, p1. rewrite !kof_wr_id. cbn [step_next]. apply in_add_der. right. apply in_add_der. right. exact He.
  - exact He.
  - exfalso. apply (f_equal (@length _)) in Ed. cbn in Ed. lia.
Qed.

(** ** The events *)
Lemma several_data : forall c0 c1 p olit0 olit1 i0 d0 i1 d1, several c0 -> several c1 ->
  (co_cost c0 <= obj_lb (co_obj c0) -> co_cost c0 = 0 \/ co_reform c0 <> None) ->
  (obj_lb (co_obj c0) < co_cost c0 -> pe_details (co_enc c0) (co_cost c0) = Some (olit0, (i0, Some d0))) ->
  (co_cost c1 <= obj_lb (co_obj c1) -> co_cost c1 = 0 \/ co_reform c1 <> None) ->
  (obj_lb (co_obj c1) < co_cost c1 -> pe_details (co_enc c1) (co_cost c1) = Some (olit1, (i1, Some d1))) ->
  exists ds, cut_data [c0; c1] p = Some (ds, p) /\
    cut_lits ds = (if co_cost c0 <=? obj_lb (co_obj c0) then [] else [ax_not (axiom olit0)]) ++ (if co_cost c1 <=? obj_lb (co_obj c1) then [] else [ax_not (axiom olit1)]).
Proof.
  intros c0 c1 p olit0 olit1 i0 d0 i1 d1 S0 S1 Z0 E0 Z1 E1.
  assert (One : forall c olit i d q, several c ->
    (co_cost c <= obj_lb (co_obj c) -> co_cost c = 0 \/ co_reform c <> None) ->
    (obj_lb (co_obj c) < co_cost c -> pe_details (co_enc c) (co_cost c) = Some (olit, (i, Some d))) ->
    exists x, cut_one (co_enc c) (co_obj c) (co_reform c) (co_cost c) q = Some (x, q) /\
      fst x = if co_cost c <=? obj_lb (co_obj c) then None else Some (ax_not (axiom olit))).
  { intros c olit i d q S Z E. destruct (Nat.leb_spec (co_cost c) (obj_lb (co_obj c))) as [H|H].
    - unfold cut_one. destruct (Nat.leb_spec (co_cost c) (obj_lb (co_obj c))); [|lia].
      assert (Q : ((co_cost c =? 0) || is_some (co_reform c)) = true).
      { destruct (Z H) as [X|X]; [rewrite X; reflexivity|]. destruct (co_reform c); [apply orb_true_r|contradiction]. }
      rewrite Q. eexists. split; [reflexivity|reflexivity].
    - rewrite (several_cut c q olit i d S H (E H)). eexists. split; [reflexivity|reflexivity]. }
  destruct (One c0 olit0 i0 d0 p S0 Z0 E0) as (x0 & A0 & B0). destruct (One c1 olit1 i1 d1 p S1 Z1 E1) as (x1 & A1 & B1).
  exists [x0; x1]. cbn [cut_data]. rewrite A0, A1. split; [reflexivity|]. unfold cut_lits. cbn [filter_map]. rewrite B0, B1.
  destruct (co_cost c0 <=? obj_lb (co_obj c0)), (co_cost c1 <=? obj_lb (co_obj c1)); reflexivity.
Qed.

(** no solution is left in a contradictory proof *)
Lemma not_contra : forall k0 n (sol : assignment -> Prop) r b, (forall b, sol b -> total_to n b) -> run_ok k0 n sol r -> sol b -> (forall d, In d (r_done r) -> better (r_cs r) b d) ->
  ~ exists c l d, kept_clause (kof k0 (r_p r)) (r_del r) c [ax_not d] /\ kept_clause (kof k0 (r_p r)) (r_del r) l [d].
Proof.
  intros k0 n sol r b Hsol R Hb Hd (c & l & d & K1 & K2). destruct (run_extends k0 n sol r b Hsol R Hb Hd) as (a & Ha & _).
  apply kept_derived in K1, K2. pose proof (derived_unit _ _ _ a (proj1 K1) Ha) as T1. pose proof (derived_unit _ _ _ a (proj1 K2) Ha) as T2.
  rewrite ax_not_true, T2 in T1. discriminate.
Qed.

(** the first half of an iteration: the cut of the solution, and what is known about the increasing objective *)
Lemma cut_part : forall k0 n (sol : assignment -> Prop) s c0 c1 nv p L done b lb f i d sb w inc dec out0 inc_id first1, (forall b, sol b -> total_to n b) ->
  s = mkBr (mkRst [c0; c1] nv p L done) b lb f i d None -> bos_ok k0 n sol s ->
  sol sb -> (forall d, In d done -> better [c0; c1] sb d) -> witness_of [c0; c1] n p sb w ->
  inc = icost (co_obj c0) (asg_of sb) -> dec = icost (co_obj c1) (asg_of sb) ->
  several c0 -> several c1 -> (forall c, In c (for_sol [c0; c1] sb) -> low_pre c) -> pe_offset (co_enc c1) = obj_lb (co_obj c1) ->
  inc_pre s c0 nv inc out0 inc_id ->
  (pe_offset (co_enc c1) < dec -> lvar first1 < nv /\ (exists i d, pe_details (co_enc c1) dec = Some (first1, (i, Some d))) /\ (pe_offset (co_enc c0) < inc -> lvar out0 <> lvar first1)) ->
  let ds := if dec <=? pe_offset (co_enc c1) then [] else [ax_not (axiom first1)] in
  exists x pmin p1, certify_pmin_cut (for_sol [c0; c1] sb) w n p = Some (pmin, p1) /\ run_ok k0 n sol (mkRst [c0; c1] nv p1 L (sb :: done)) /\ ps_reg p1 = ps_reg p /\
    ps_next p <= pmin < ps_next p1 /\ ps_next p <= ps_next p1 /\ ~ In pmin L /\ proper_ls (x :: ds) /\
    (forall e, In e (k_all (kof k0 p)) -> In e (k_all (kof k0 p1))) /\ (forall e, In e (rm_ids L (k_all (kof k0 p))) -> In e (rm_ids L (k_all (kof k0 p1)))) /\
    inc_bound (kof k0 p1) (co_enc c0) inc lb inc_id b x /\ pmin_says (kof k0 p1) (co_enc c0) inc pmin x ds.
Proof.
  intros k0 n sol s c0 c1 nv p L done b lb f i d sb w inc dec out0 inc_id first1 Hsol Es [R Bl Bi Bd _] Hb Hd Hw Ei Ed S0 S1 Hlow Hoff1 [Io Iout Ilast Iid] Hdec ds.
  rewrite Es in *. cbn [br_r br_b br_lb br_next br_inc br_dec br_end r_cs r_nv r_p r_del r_done] in *. clear Es.
  set (d0 := mkCobj (co_enc c0) (co_obj c0) (co_reform c0) inc). set (d1 := mkCobj (co_enc c1) (co_obj c1) (co_reform c1) dec).
  assert (Efs : for_sol [c0; c1] sb = [d0; d1]) by (unfold for_sol, d0, d1; rewrite Ei, Ed; reflexivity).
  assert (H0 : low_pre d0) by (apply Hlow; rewrite Efs; left; reflexivity). assert (H1 : low_pre d1) by (apply Hlow; rewrite Efs; right; left; reflexivity).
  assert (Dout : exists ds0, cut_data [d0; d1] p = Some (ds0, p) /\
    cut_lits ds0 = (if inc <=? pe_offset (co_enc c0) then [] else [ax_not (axiom out0)]) ++ ds).
  { unfold ds. rewrite Io, Hoff1.
    assert (X0 : exists i d, obj_lb (co_obj c0) < inc -> pe_details (co_enc c0) inc = Some (out0, (i, Some d))).
    { destruct (Nat.lt_ge_cases (obj_lb (co_obj c0)) inc) as [H|H]; [|exists None, 0; lia]. rewrite Io in Iout. destruct (Iout H) as (_ & u & v & E). exists u, v. intros _. exact E. }
    assert (X1 : exists i d, obj_lb (co_obj c1) < dec -> pe_details (co_enc c1) dec = Some (first1, (i, Some d))).
    { destruct (Nat.lt_ge_cases (obj_lb (co_obj c1)) dec) as [H|H]; [|exists None, 0; lia]. rewrite Hoff1 in Hdec. destruct (Hdec H) as (_ & (u & v & E) & _). exists u, v. intros _. exact E. }
    destruct X0 as (u0 & v0 & X0). destruct X1 as (u1 & v1 & X1).
    exact (several_data d0 d1 p out0 first1 u0 v0 u1 v1 S0 S1 (fun H => proj1 (H0 H)) X0 (fun H => proj1 (H1 H)) X1). }
  destruct Dout as (ds0 & Ecd & Ecl). rewrite <- Efs in Ecd.
  destruct (cut_run_ok k0 n sol [c0; c1] nv p L done sb w ds0 Hsol R Hb Hd Hw) as (pmin & p1 & Ec & R1 & Rg & Ik & Hid & Hnx & M & M2); try assumption.
  { intros c Hc Hle Hr. exact (proj2 (Hlow c Hc Hle) Hr). }
  { intros l r Hl Er. rewrite Ecl in Hl. apply in_app_or in Hl. destruct Hl as [Hl|Hl].
    - destruct (Nat.leb_spec inc (pe_offset (co_enc c0))) as [Y|Y]; [destruct Hl|]. destruct Hl as [<-|[]]. cbn [ax_not ax_var axiom] in Er. injection Er as <-. exact (proj1 (Iout Y)).
    - unfold ds in Hl. destruct (Nat.leb_spec dec (pe_offset (co_enc c1))) as [Y|Y]; [destruct Hl|]. destruct Hl as [<-|[]]. cbn [ax_not ax_var axiom] in Er. injection Er as <-. exact (proj1 (Hdec Y)). }
  assert (Hpl : pmin < ps_next p1).
  { apply rm_in in Ik. pose proof (ro_wok _ _ _ _ R1) as W1. cbn [r_p] in W1. rewrite <- (wk_next _ _ W1). exact (proj2 (wk_ids _ _ W1) _ (proj1 Ik)). }
  set (x := if inc <=? pe_offset (co_enc c0) then axiom (mkLit (S (lvar first1)) false) else axiom out0).
  assert (Hx : proper_ls (x :: ds)).
  { unfold ds, x. destruct (Nat.leb_spec dec (pe_offset (co_enc c1))) as [Y|Y]; [repeat constructor; intros []|]. unfold proper_ls. cbn [map]. constructor; [|repeat constructor; intros []].
    intros [X|[]]. destruct (Nat.leb_spec inc (pe_offset (co_enc c0))) as [Q|Q]; cbn [axiom ax_not ax_var lvar] in X; injection X as X; [lia|]. destruct (Hdec Y) as (_ & _ & T). exact (T Q (eq_sym X)). }
  exists x, pmin, p1. split; [exact Ec|]. split; [exact R1|]. split; [exact Rg|]. split; [split; assumption|]. split; [exact Hnx|].
  split; [apply rm_in in Ik; exact (proj2 Ik)|]. split; [exact Hx|]. split; [exact M|]. split; [exact M2|]. split.
  - intros Hlt. assert (Ex : x = axiom out0) by (unfold x; destruct (Nat.leb_spec inc (pe_offset (co_enc c0))); [lia|reflexivity]). split.
    + intros E. destruct Bl as [X|X]; [exfalso; exact (not_contra k0 n sol _ sb Hsol R Hb Hd X)|].
      destruct (X out0 (Ilast Hlt E)) as (c & l & e & Q1 & Q2 & Q3 & Q4 & Q5). exists c, l, e. split; [exact Q1|]. split; [exact Q2|]. rewrite Ex.
      apply (kept_mono _ (kof k0 p1) _ L _ _ M2) in Q3, Q4. apply kept_derived in Q3, Q4. split; [exact (proj1 Q3)|]. split; [exact (proj1 Q4)|exact Q5].
    + intros E. destruct (Iid Hlt E) as (id & Q1 & Q2). exists id. split; [exact Q2|]. rewrite Ex. pose proof (Bi _ _ _ Q1) as Q. apply (kept_mono _ (kof k0 p1) _ L _ _ M2) in Q. apply kept_derived in Q. exact (proj1 Q).
  - unfold pmin_says. exists (lb_clause (cut_lits ds0)). apply rm_in in Ik. split; [exact (proj1 Ik)|].
    replace ((if inc <=? pe_offset (co_enc c0) then [] else [ax_not x]) ++ ds) with (cut_lits ds0).
    + apply clause_proper. rewrite Ecl. unfold x in Hx. destruct (inc <=? pe_offset (co_enc c0)); [unfold proper_ls in Hx; inversion Hx; assumption|exact Hx].
    + rewrite Ecl. unfold x. destruct (inc <=? pe_offset (co_enc c0)); reflexivity.
Qed.

Lemma in_lt : forall k0 p i C, wok k0 p -> In (i, C) (k_all (kof k0 p)) -> i < ps_next p.
Proof. intros k0 p i C W H. rewrite <- (wk_next _ _ W). exact (proj2 (wk_ids _ _ W) _ H). Qed.
Lemma lnot_map : forall ls, map (fun b => axiom (lnot b)) (map lnot ls) = map axiom ls.
Proof. intros ls. rewrite map_map. apply map_ext. intros [v b]. unfold lnot, axiom. cbn [lvar lneg]. rewrite negb_involutive. reflexivity. Qed.

(** an iteration can be done; the clauses handed to the solver are the bound on the decreasing objective *)
Lemma iterate_ok : forall k0 n (sol : assignment -> Prop) s c0 c1 nv p L done b lb f i sb w inc dec out0 inc_id assumps first0 first1 lb_id, (forall b, sol b -> total_to n b) ->
  s = mkBr (mkRst [c0; c1] nv p L done) b lb f i (Some (assumps, dec, first1, lb_id)) None -> bos_ok k0 n sol s ->
  sol sb -> (forall d, In d done -> better [c0; c1] sb d) -> witness_of [c0; c1] n p sb w ->
  inc = icost (co_obj c0) (asg_of sb) -> dec = icost (co_obj c1) (asg_of sb) -> pe_offset (co_enc c1) < dec ->
  several c0 -> several c1 -> (forall c, In c (for_sol [c0; c1] sb) -> low_pre c) -> pe_offset (co_enc c1) = obj_lb (co_obj c1) ->
  inc_pre s c0 nv inc out0 inc_id -> outs_pre (kof k0 p) nv c0 c1 inc dec out0 assumps first0 first1 ->
  exists pmin p1 b' p2, certify_pmin_cut (for_sol [c0; c1] sb) w n p = Some (pmin, p1) /\
    bos_step (co_enc c0) (co_enc c1) (co_obj c1) inc dec lb inc_id (Some lb_id) assumps pmin b p1 = Some (b', p2) /\
    (exists as_ new, pe_enforce_ub (co_enc c1) (dec - 1) = Some as_ /\ ps_reg p2 = ps_reg p ++ new /\ map fst new = map (fun a => [a]) as_) /\
    forall D, (forall x, In x D -> ps_next p1 <= x < ps_next p2 /\ bs_cut b' <> Some x /\ bs_lb b' <> Some x) ->
      bos_ok k0 n sol (mkBr (mkRst [c0; c1] nv p2 (D ++ L) (sb :: done)) b' (inc + 1) (Some first0) None None None).
Proof.
  intros k0 n sol s c0 c1 nv p L done b lb f i sb w inc dec out0 inc_id assumps first0 first1 lb_id Hsol Es B Hb Hd Hw Ei Ed Hdl S0 S1 Hlow Hoff1 Hinc [Hnx (ts0 & outs0 & W0 & C0 & N0 & Ea & Nf) (ts1 & outs1 & W1 & C1 & N1 & Ee) Hf1 Hdiff].
  pose proof C1 as ((fi1 & oi1 & O1) & _).
  assert (Hdec : pe_offset (co_enc c1) < dec -> lvar first1 < nv /\ (exists i d, pe_details (co_enc c1) dec = Some (first1, (i, Some d))) /\ (pe_offset (co_enc c0) < inc -> lvar out0 <> lvar first1)).
  { intros _. split; [exact Hf1|]. split; [|exact Hdiff]. exists (Some fi1), oi1. exact (oa_details _ _ _ _ _ _ _ O1). }
  destruct (cut_part k0 n sol s c0 c1 nv p L done b lb f i _ sb w inc dec out0 inc_id first1 Hsol Es B Hb Hd Hw Ei Ed S0 S1 Hlow Hoff1 Hinc Hdec) as (x & pmin & p1 & Ec & R1 & Rg & (Hp1 & Hp2) & Hp3 & HpL & Hx & M & M2 & Hib & Hps).
  destruct (Nat.leb_spec dec (pe_offset (co_enc c1))) as [Y|_]; [lia|].
  assert (Wp1 : wok k0 p1) by (exact (ro_wok _ _ _ _ R1)).
  assert (HL1 : forall y, In y L -> y < ps_next p1) by (exact (ro_del _ _ _ _ R1)).
  destruct S0 as (S00 & S01 & B0). destruct S1 as (S10 & S11 & B1).
  pose proof (bo_dec _ _ _ _ B assumps dec first1 lb_id) as Hdc. rewrite Es in Hdc. cbn [br_dec br_r r_p r_del] in Hdc. specialize (Hdc eq_refl). rewrite Ea, lnot_map in Hdc.
  assert (Sh : exists id q, bos_shorten (co_enc c0) inc assumps (Some lb_id) p1 = Some (Some id, q) /\ frame k0 p1 q /\ ps_reg q = ps_reg p1 /\
    (derived (kof k0 q) id [axiom first0; axiom first1] \/ derived (kof k0 p1) lb_id [axiom first1]) /\ lb_id < ps_next p1 /\ ~ In lb_id L).
  { rewrite Ea. destruct Hdc as [K|K]; apply (kept_mono _ (kof k0 p1) _ L _ _ M2) in K; apply kept_derived in K; destruct K as (K & KL).
    - destruct (bos_shorten_ok k0 p1 (co_enc c0) ts0 inc first0 outs0 lb_id (axiom first1) Wp1 W0 Hnx (chain_mono _ _ _ _ _ _ M C0)) as (id & q & E & F & G & Dq).
      { unfold proper_ls. rewrite map_app, map_map. change (map (fun x0 => ax_var (axiom x0)) (first0 :: outs0)) with (map (fun l => PVs (lvar l)) (first0 :: outs0)).
        rewrite <- (map_map lvar PVs). apply NoDup_app_intro.
        - apply FinFun.Injective_map_NoDup; [intros u v E; injection E as E; exact E|exact N0].
        - repeat constructor; intros [].
        - intros y Hy [<-|[]]. apply Nf. apply in_map_iff in Hy. destruct Hy as (u & E & Hu). injection E as E. rewrite <- E. exact Hu. }
      { exact K. }
      exists id, q. split; [exact E|]. split; [exact F|]. split; [exact G|]. split; [left; exact Dq|]. split; [destruct K as (C & IC & _); exact (in_lt _ _ _ _ Wp1 IC)|exact KL].
    - pose proof K as (C & IC & HC).
      destruct (bos_shorten_any k0 p1 (co_enc c0) ts0 inc first0 outs0 lb_id C Wp1 W0 Hnx (chain_mono _ _ _ _ _ _ M C0) N0 IC) as (id & q & E & F & G).
      exists id, q. split; [exact E|]. split; [exact F|]. split; [exact G|]. split; [right; exact K|]. split; [exact (in_lt _ _ _ _ Wp1 IC)|exact KL]. }
  destruct Sh as (id & q & E1 & F1 & G1 & Dsh & Hlb & HlbL).
  destruct (bos_shorten_grows [] _ _ _ _ _ _ _ E1) as (Gr1 & Hid). specialize (Hid id eq_refl).
  destruct (bos_cut_ok k0 q (co_enc c0) inc lb inc_id b pmin x [ax_not (axiom first1)] (fr_wok _ _ _ F1) Hx) as (cut & q2 & E2 & F2 & G2 & D2).
  { exact (inc_bound_mono _ _ _ _ _ _ _ _ (fr_old _ _ _ F1) Hib). }
  { exact (derived_mono _ _ _ _ (fr_old _ _ _ F1) Hps). }
  destruct (bos_cut_grows [] _ _ _ _ _ _ _ _ _ _ E2) as (Gr2 & Hcut).
  pose proof (frame_trans _ _ _ _ F1 F2) as F12.
  destruct (bos_add_ok k0 q2 (co_enc c1) ts1 dec first1 outs1 cut (fr_wok _ _ _ F2) W1) as (p2 & new & E3 & F3 & G3 & U3); try assumption.
  { apply (chain_mono _ (kof k0 q2) _ _ _ _ (fr_old _ _ _ F12)). exact (chain_mono _ _ _ _ _ _ M C1). }
  pose proof (bos_add_grows [] _ _ _ _ _ E3) as Gr3. pose proof (frame_trans _ _ _ _ F12 F3) as F.
  assert (Gr : grows [] p1 p2) by (exact (grows_trans _ _ _ _ Gr1 (grows_trans _ _ _ _ Gr2 Gr3))).
  assert (Hr : ps_reg p2 = ps_reg p1 ++ new) by (rewrite G3, G2, G1; reflexivity).
  exists pmin, p1, (mkBst (Some cut) (Some id)), p2. split; [exact Ec|]. split; [unfold bos_step; rewrite B0, E1, E2, B1, E3; reflexivity|].
  split; [exists (map lnot (first1 :: outs1)), new; split; [exact Ee|]; split; [rewrite Hr, Rg; reflexivity|exact (proj1 U3)]|].
  intros D HD. cbn [bs_cut bs_lb] in HD.
  destruct (frame_run_ok k0 n sol [c0; c1] nv p1 L (sb :: done) [] p2 D R1 F Gr) as (R2 & M3).
  { intros v []. }
  { intros y Hy. exact (proj1 (HD y Hy)). }
  { intros c y Hin. rewrite Hr in Hin. apply in_app_or in Hin. destruct Hin as [Hin|Hin]; [left; exact Hin|right; exact (same_units _ _ _ _ _ U3 Hin)]. }
  pose proof (gs_next _ _ _ Gr1) as Hn1.
  assert (Kcut : kept_clause (kof k0 p2) (D ++ L) cut [ax_not (axiom first1)]).
  { apply kept_derived. split; [exact (derived_mono _ _ _ _ (fr_old _ _ _ F3) D2)|]. intros X. apply in_app_or in X. destruct X as [X|X].
    - destruct (HD _ X) as (_ & Q & _). apply Q. reflexivity.
    - pose proof (HL1 _ X). destruct Hcut as [-> | Hcut]; [exact (HpL X)|]. lia. }
  constructor; cbn [br_r br_b br_lb br_next br_inc br_dec br_end r_cs r_nv r_p r_del r_done bs_cut bs_lb]; try (intros; discriminate); [exact R2|].
  destruct Dsh as [Dsh|Dlb].
  - right. intros f' Hf'. injection Hf' as <-. exists cut, id, (axiom first1). split; [reflexivity|]. split; [reflexivity|]. split; [exact Kcut|]. split.
    + apply kept_derived. split; [exact (derived_mono _ _ _ _ (fr_old _ _ _ (frame_trans _ _ _ _ F2 F3)) Dsh)|]. intros X. apply in_app_or in X. destruct X as [X|X].
      * destruct (HD _ X) as (_ & _ & Q). apply Q. reflexivity.
      * pose proof (HL1 _ X). destruct Hid as [E|E]; [injection E as <-; exact (HlbL X)|lia].
    + cbn [axiom ax_var]. intros X. injection X as X. apply Nf. left. exact X.
  - left. exists cut, lb_id, (axiom first1). split; [exact Kcut|]. apply kept_derived. split; [exact (derived_mono _ _ _ _ (fr_old _ _ _ F) Dlb)|].
    intros X. apply in_app_or in X. destruct X as [X|X]; [destruct (HD _ X) as ((Q & _) & _); lia|exact (HlbL X)].
Qed.

(** the last iteration *)
Lemma finish_ok : forall k0 n (sol : assignment -> Prop) s c0 c1 nv p L done b lb f i d sb w inc out0 inc_id, (forall b, sol b -> total_to n b) ->
  s = mkBr (mkRst [c0; c1] nv p L done) b lb f i d None -> bos_ok k0 n sol s ->
  sol sb -> (forall d, In d done -> better [c0; c1] sb d) -> witness_of [c0; c1] n p sb w ->
  inc = icost (co_obj c0) (asg_of sb) -> icost (co_obj c1) (asg_of sb) <= pe_offset (co_enc c1) ->
  several c0 -> several c1 -> (forall c, In c (for_sol [c0; c1] sb) -> low_pre c) -> pe_offset (co_enc c1) = obj_lb (co_obj c1) ->
  inc_pre s c0 nv inc out0 inc_id ->
  exists pmin p1 id p2, certify_pmin_cut (for_sol [c0; c1] sb) w n p = Some (pmin, p1) /\
    bos_cut (co_enc c0) inc lb inc_id (bs_cut b) (bs_lb b) pmin p1 = Some (id, p2) /\ ps_reg p2 = ps_reg p /\
    bos_ok k0 n sol (mkBr (mkRst [c0; c1] nv p2 L (sb :: done)) b lb f i d (Some id)).
Proof.
  intros k0 n sol s c0 c1 nv p L done b lb f i d sb w inc out0 inc_id Hsol Es B Hb Hd Hw Ei Hdl S0 S1 Hlow Hoff1 Hinc.
  destruct (cut_part k0 n sol s c0 c1 nv p L done b lb f i d sb w inc (icost (co_obj c1) (asg_of sb)) out0 inc_id out0 Hsol Es B Hb Hd Hw Ei eq_refl S0 S1 Hlow Hoff1 Hinc) as (x & pmin & p1 & Ec & R1 & Rg & (Hp1 & Hp2) & Hp3 & HpL & Hx & M & M2 & Hib & Hps).
  { intros X. lia. }
  destruct (Nat.leb_spec (icost (co_obj c1) (asg_of sb)) (pe_offset (co_enc c1))) as [_|Y]; [|lia].
  destruct (bos_cut_ok k0 p1 (co_enc c0) inc lb inc_id b pmin x [] (ro_wok _ _ _ _ R1) Hx Hib Hps) as (cut & p2 & E2 & F2 & G2 & D2).
  destruct (bos_cut_grows [] _ _ _ _ _ _ _ _ _ _ E2) as (Gr2 & Hcut).
  destruct (frame_run_ok k0 n sol [c0; c1] nv p1 L (sb :: done) [] p2 [] R1 F2 Gr2) as (R2 & M3).
  { intros v []. }
  { intros y []. }
  { intros c y Hin. rewrite G2 in Hin. left. exact Hin. }
  exists pmin, p1, cut, p2. split; [exact Ec|]. split; [exact E2|]. split; [rewrite G2; exact Rg|]. cbn [app] in R2, M3.
  destruct B as [B1 B2 B3 B4 _]. rewrite Es in *. cbn [br_r br_b br_lb br_next br_inc br_dec br_end r_cs r_nv r_p r_del r_done] in *.
  assert (M4 : forall e, In e (rm_ids L (k_all (kof k0 p))) -> In e (rm_ids L (k_all (kof k0 p2)))) by (intros e He; exact (M3 e (M2 e He))).
  constructor; cbn [br_r br_b br_lb br_next br_inc br_dec br_end r_cs r_nv r_p r_del r_done].
  - exact R2.
  - destruct B2 as [(c & l & e & K1 & K2)|B2].
    + left. exists c, l, e. split; [exact (kept_mono _ _ _ _ _ _ M4 K1)|exact (kept_mono _ _ _ _ _ _ M4 K2)].
    + right. intros f' Hf'. destruct (B2 f' Hf') as (c & l & e & Q1 & Q2 & Q3 & Q4 & Q5). exists c, l, e. split; [exact Q1|]. split; [exact Q2|].
      split; [exact (kept_mono _ _ _ _ _ _ M4 Q3)|]. split; [exact (kept_mono _ _ _ _ _ _ M4 Q4)|exact Q5].
  - intros cost g id H. exact (kept_mono _ _ _ _ _ _ M4 (B3 cost g id H)).
  - intros as_ cost g id H. destruct (B4 as_ cost g id H) as [K|K]; [left|right]; exact (kept_mono _ _ _ _ _ _ M4 K).
  - intros id H. injection H as <-. destruct D2 as (C & IC & HC). exists C. split; [exact IC|]. intros a _ Ha. rewrite (clausal_holds a C []) in Ha; [|intros y []|exact HC]. destruct Ha as (y & [] & _).
Qed.

(** the lower bound of linear search *)
Lemma search_ok : forall k0 n (sol : assignment -> Prop) cs nv p L done e o fuel base cost first core core_id id p',
  run_ok k0 n sol (mkRst cs nv p L done) -> core_pre (kof k0 p) nv e fuel base cost first core core_id ->
  linsu_certify e fuel o base cost core core_id p = Some (id, p') -> ~ In id L ->
  run_ok k0 n sol (mkRst cs nv p' L done) /\ ps_reg p' = ps_reg p /\ (forall e, In e (rm_ids L (k_all (kof k0 p))) -> In e (rm_ids L (k_all (kof k0 p')))) /\
  (kept_clause (kof k0 p') L id (map (fun b => axiom (lnot b)) base ++ [axiom first]) \/ kept_clause (kof k0 p') L id [axiom first]).
Proof.
  intros k0 n sol cs nv p L done e o fuel base cost first core core_id id p' R [Cb Cn Cv (ts & outs & bcore & ocore & Hw & Hch & Hn & Hov & Hbo & Hfu & Ec & Sb & So & Hoe & Hu & Hder)] E Hid.
  unfold linsu_certify in E. rewrite Cb in E. rewrite Ec in *.
  destruct (linsu_ok k0 p e fuel ts base bcore first outs ocore cost core_id (ro_wok _ _ _ _ R) Hw Hch Hn Cn Hbo Sb So Hoe) as (id0 & p0 & E0 & F & G & Hd & _); try assumption.
  { intros X. apply Hu. apply (f_equal (@length _)) in X. rewrite app_length, map_length in X. destruct bcore; [reflexivity|cbn in X; lia]. }
  rewrite E in E0. injection E0 as <- <-.
  pose proof Hch as ((fi & oi & O1) & _).
  pose proof (linsu_cert_grows (map lvar (base ++ [first])) _ _ _ _ _ _ _ _ _ _ _ E (oa_details _ _ _ _ _ _ _ O1) (fun y H => H)) as Gr.
  destruct (frame_run_ok k0 n sol cs nv p L done _ p' [] R F Gr) as (R2 & M).
  { intros v Hv. apply in_map_iff in Hv. destruct Hv as (l & <- & Hl). apply in_app_or in Hl. destruct Hl as [Hl|[<-|[]]]; [exact (Cv l Hl)|exact (Hov first (or_introl eq_refl))]. }
  { intros y []. }
  { intros c y Hin. rewrite G in Hin. left. exact Hin. }
  cbn [app] in R2, M. split; [exact R2|]. split; [exact G|]. split; [exact M|]. destruct Hd as [Hd|(-> & -> & -> & ->)].
  - left. apply kept_derived. split; assumption.
  - right. apply kept_derived. split; [exact Hder|exact Hid].
Qed.

Theorem bos_event_ok : forall k0 n (sol : assignment -> Prop) s s', (forall b, sol b -> total_to n b) -> bos_ok k0 n sol s -> bos_event k0 n sol s s' -> bos_ok k0 n sol s'.
Proof.
  intros k0 n sol s s' Hsol B E.
  assert (Keep : forall r r' b lb f i d, bos_ok k0 n sol (mkBr r b lb f i d None) -> run_ok k0 n sol r' ->
    (forall e, In e (rm_ids (r_del r) (k_all (kof k0 (r_p r)))) -> In e (rm_ids (r_del r') (k_all (kof k0 (r_p r'))))) -> bos_ok k0 n sol (mkBr r' b lb f i d None)).
  { intros r r' b lb f i d [B1 B2 B3 B4 _] R M. cbn [br_r br_b br_lb br_next br_inc br_dec br_end] in *. constructor; cbn [br_r br_b br_lb br_next br_inc br_dec br_end].
    - exact R.
    - destruct B2 as [(c & l & e & K1 & K2)|B2].
      + left. exists c, l, e. split; [exact (kept_mono _ _ _ _ _ _ M K1)|exact (kept_mono _ _ _ _ _ _ M K2)].
      + right. intros f' Hf'. destruct (B2 f' Hf') as (c & l & e & Q1 & Q2 & Q3 & Q4 & Q5). exists c, l, e. split; [exact Q1|]. split; [exact Q2|].
        split; [exact (kept_mono _ _ _ _ _ _ M Q3)|]. split; [exact (kept_mono _ _ _ _ _ _ M Q4)|exact Q5].
    - intros cost g id H. exact (kept_mono _ _ _ _ _ _ M (B3 cost g id H)).
    - intros as_ cost g id H. destruct (B4 as_ cost g id H) as [K|K]; [left|right]; exact (kept_mono _ _ _ _ _ _ M K).
    - intros id H. discriminate. }
  destruct E as [r r' b lb f i d S Ed|c0 c1 nv p L done b lb f i d fuel cost first core core_id id p' Hc El Hid|c0 c1 nv p L done b lb f i d fuel base cost first core core_id id p' Hc El Hid|s c0 c1 nv p L done b lb f i sb w inc dec out0 inc_id assumps first0 first1 lb_id pmin p1 b' p2 D Es Hb Hd Hw Ei Edc Hdl S0 S1 Hlow Hoff Hinc Hout Ec Eb HD|s c0 c1 nv p L done b lb f i d sb w inc out0 inc_id pmin p1 id p2 Es Hb Hd Hw Ei Hdl S0 S1 Hlow Hoff Hinc Ec Eb].
  - exact (Keep r r' b lb f i d B (run_step_ok k0 n sol r r' Hsol (bo_run _ _ _ _ B) S) (step_keeps k0 n sol r r' (bo_run _ _ _ _ B) S Ed)).
  - destruct (search_ok k0 n sol _ nv p L done _ _ fuel [] cost first core core_id id p' (bo_run _ _ _ _ B) Hc El Hid) as (R2 & _ & M & K).
    pose proof (Keep (mkRst [c0; c1] nv p L done) (mkRst [c0; c1] nv p' L done) b lb f i d B R2 M) as [Q1 Q2 Q3 Q4 Q5]. constructor; [exact Q1|exact Q2| |exact Q4|exact Q5].
    intros cost' g id' H. injection H as <- <- <-. destruct K as [K|K]; exact K.
  - destruct (search_ok k0 n sol _ nv p L done _ _ fuel base cost first core core_id id p' (bo_run _ _ _ _ B) Hc El Hid) as (R2 & _ & M & K).
    pose proof (Keep (mkRst [c0; c1] nv p L done) (mkRst [c0; c1] nv p' L done) b lb f i d B R2 M) as [Q1 Q2 Q3 Q4 Q5]. constructor; [exact Q1|exact Q2|exact Q3| |exact Q5].
    intros as_ cost' g id' H. injection H as <- <- <- <-. exact K.
  - destruct (iterate_ok k0 n sol s c0 c1 nv p L done b lb f i sb w inc dec out0 inc_id assumps first0 first1 lb_id Hsol Es B Hb Hd Hw Ei Edc Hdl S0 S1 Hlow Hoff Hinc Hout) as (pmin' & p1' & b2 & p2' & Ec' & Eb' & _ & H).
    rewrite Ec in Ec'. injection Ec' as <- <-. rewrite Eb in Eb'. injection Eb' as <- <-. exact (H D HD).
  - destruct (finish_ok k0 n sol s c0 c1 nv p L done b lb f i d sb w inc out0 inc_id Hsol Es B Hb Hd Hw Ei Hdl S0 S1 Hlow Hoff Hinc) as (pmin' & p1' & id' & p2' & Ec' & Eb' & _ & H).
    rewrite Ec in Ec'. injection Ec' as <- <-. rewrite Eb in Eb'. injection Eb' as <- <-. exact H.
Qed.
Theorem bos_run_ok : forall k0 n (sol : assignment -> Prop) s s', (forall b, sol b -> total_to n b) -> bos_ok k0 n sol s -> bos_run k0 n sol s s' -> bos_ok k0 n sol s'.
Proof. intros k0 n sol s s' Hsol B H. induction H as [s|s1 s2 s3 H IH E]; [exact B|]. exact (bos_event_ok k0 n sol s2 s3 Hsol (IH B) E). Qed.
Lemma bos_start_ok : forall k0 n (sol : assignment -> Prop) r lb, run_ok k0 n sol r -> bos_ok k0 n sol (bos_start r lb).
Proof. intros k0 n sol r lb R. constructor; cbn [bos_start br_r br_b br_lb br_next br_inc br_dec br_end]; [exact R|right; discriminate|discriminate|discriminate|discriminate]. Qed.

(** ** What a run leaves *)
Lemma bos_done : forall k0 n (sol : assignment -> Prop) s s', bos_run k0 n sol s s' -> map co_obj (r_cs (br_r s')) = map co_obj (r_cs (br_r s)) /\
  forall b, In b (r_done (br_r s')) -> In b (r_done (br_r s)) \/ sol b.
Proof.
  intros k0 n sol s s' H. induction H as [s|s1 s2 s3 H IH E]; [split; [reflexivity|intros b Hb; left; exact Hb]|]. destruct IH as (IH1 & IH2). rewrite <- IH1. 
  assert (Q : map co_obj (r_cs (br_r s3)) = map co_obj (r_cs (br_r s2)) /\ forall b, In b (r_done (br_r s3)) -> In b (r_done (br_r s2)) \/ sol b).
  { destruct E as [r r' b lb f i d S Ed|c0 c1 nv p L done b lb f i d fuel cost first core core_id id p' Hc El Hid|c0 c1 nv p L done b lb f i d fuel base cost first core core_id id p' Hc El Hid|s c0 c1 nv p L done b lb f i sb w inc dec out0 inc_id assumps first0 first1 lb_id pmin p1 b' p2 D Es Hb Hd Hw Ei Edc Hdl S0 S1 Hlow Hoff Hinc Hout Ec Eb HD|s c0 c1 nv p L done b lb f i d sb w inc out0 inc_id pmin p1 id p2 Es Hb Hd Hw Ei Hdl S0 S1 Hlow Hoff Hinc Ec Eb]; try rewrite Es; cbn [br_r r_cs r_done].
    - exact (runs_done k0 n sol r r' (runs_step _ _ _ _ _ _ (runs_refl _ _ _ r) S)).
    - split; [reflexivity|]. intros x Hx. left. exact Hx.
    - split; [reflexivity|]. intros x Hx. left. exact Hx.
    - split; [reflexivity|]. intros x [<-|Hx]; [right; exact Hb|left; exact Hx].
    - split; [reflexivity|]. intros x [<-|Hx]; [right; exact Hb|left; exact Hx]. }
  destruct Q as (Q1 & Q2). split; [exact Q1|]. intros b Hb. destruct (Q2 b Hb) as [X|X]; [exact (IH2 b X)|right; exact X].
Qed.
Lemma bos_with_run : forall k0 n (sol : assignment -> Prop) Q s s', bos_run_with k0 n sol Q s s' -> bos_run k0 n sol s s' /\ Q (r_cs (br_r s')).
Proof. intros k0 n sol Q s s' H. induction H as [s Hs|s1 s2 s3 H IH E Hq]; split; try assumption; [apply br_refl|]. exact (br_more _ _ _ _ _ _ (proj1 IH) E). Qed.
(** the clauses handed to the solver in an iteration bound the decreasing objective *)
Lemma bos_event_new : forall k0 n (sol : assignment -> Prop) s s' w, (forall b, sol b -> total_to n b) -> bos_ok k0 n sol s -> bos_event k0 n sol s s' -> br_end s' = None ->
  reg_grows (r_p (br_r s)) (r_p (br_r s')) /\
  (models_handed w (r_p (br_r s')) -> enforces w (r_cs (br_r s)) -> forall d, In d (r_done (br_r s')) -> In d (r_done (br_r s)) \/ exists c, nth_error (r_cs (br_r s)) 1 = Some c /\ icost (co_obj c) w < icost (co_obj c) (asg_of d)).
Proof.
  intros k0 n sol s s' w Hsol B E.
  destruct E as [r r' b lb f i d S Ed|c0 c1 nv p L done b lb f i d fuel cost first core core_id id p' Hc El Hid|c0 c1 nv p L done b lb f i d fuel base cost first core core_id id p' Hc El Hid|s c0 c1 nv p L done b lb f i sb w' inc dec out0 inc_id assumps first0 first1 lb_id pmin p1 b' p2 D Es Hb Hd Hw Ei Edc Hdl S0 S1 Hlow Hoff Hinc Hout Ec Eb HD|s c0 c1 nv p L done b lb f i d sb w' inc out0 inc_id pmin p1 id p2 Es Hb Hd Hw Ei Hdl S0 S1 Hlow Hoff Hinc Ec Eb]; cbn [br_end]; intros En; [| | | |discriminate].
  - cbn [br_r]. split; [exact (step_reg _ _ _ _ _ S)|]. intros _ _ x Hx. left. rewrite <- Ed. exact Hx.
  - destruct (search_ok k0 n sol _ nv p L done _ _ fuel [] cost first core core_id id p' (bo_run _ _ _ _ B) Hc El Hid) as (_ & G & _). cbn [br_r r_p r_done]. split; [exact (reg_eq _ _ G)|]. intros _ _ x Hx. left. exact Hx.
  - destruct (search_ok k0 n sol _ nv p L done _ _ fuel base cost first core core_id id p' (bo_run _ _ _ _ B) Hc El Hid) as (_ & G & _). cbn [br_r r_p r_done]. split; [exact (reg_eq _ _ G)|]. intros _ _ x Hx. left. exact Hx.
  - destruct (iterate_ok k0 n sol s c0 c1 nv p L done b lb f i sb w' inc dec out0 inc_id assumps first0 first1 lb_id Hsol Es B Hb Hd Hw Ei Edc Hdl S0 S1 Hlow Hoff Hinc Hout) as (pmin' & p1' & b2 & p2' & Ec' & Eb' & (as_ & new & Ee & Er & Enew) & _).
    rewrite Ec in Ec'. injection Ec' as <- <-. rewrite Eb in Eb'. injection Eb' as <- <-. rewrite Es. cbn [br_r r_p r_cs r_done]. split.
    + intros x Hx. rewrite Er. apply in_or_app. left. exact Hx.
    + intros Hm He x [<-|Hx]; [|left; exact Hx]. right. exists c1. split; [reflexivity|].
      assert (T : lits_true w as_).
      { intros a Ha. assert (X : In [a] (map fst new)) by (rewrite Enew; apply (in_map (fun a => [a])); exact Ha). apply in_map_iff in X. destruct X as ([c y] & Ey & Hy). cbn [fst] in Ey. subst c.
        assert (Y : clause_true w [a] = true) by (apply (Hm [a] y); rewrite Er; apply in_or_app; right; exact Hy). unfold clause_true in Y. cbn [existsb] in Y. rewrite orb_false_r in Y. exact Y. }
      assert (X : pe_offset (co_enc c1) <= dec - 1) by lia. pose proof (He c1 _ as_ (or_intror (or_introl eq_refl)) X Ee T) as Y. rewrite <- Edc. lia.
Qed.
Lemma bos_run_end : forall k0 n (sol : assignment -> Prop) s1 s2 s3, bos_run k0 n sol s1 s2 -> bos_event k0 n sol s2 s3 -> br_end s2 = None.
Proof. intros k0 n sol s1 s2 s3 _ E. destruct E as [r r' b lb f i d S Ed|c0 c1 nv p L done b lb f i d fuel cost first core core_id id p' Hc El Hid|c0 c1 nv p L done b lb f i d fuel base cost first core core_id id p' Hc El Hid|s c0 c1 nv p L done b lb f i sb w' inc dec out0 inc_id assumps first0 first1 lb_id pmin p1 b' p2 D Es|s c0 c1 nv p L done b lb f i d sb w' inc out0 inc_id pmin p1 id p2 Es]; try rewrite Es; reflexivity. Qed.
Lemma bos_run_new : forall k0 n (sol : assignment -> Prop) s0 s w, (forall b, sol b -> total_to n b) -> bos_run_with k0 n sol (enforces w) s0 s -> bos_ok k0 n sol s0 ->
  r_done (br_r s0) = [] -> br_end s = None -> models_handed w (r_p (br_r s)) ->
  forall d, In d (r_done (br_r s)) -> exists o, nth_error (map co_obj (r_cs (br_r s))) 1 = Some o /\ icost o w < icost o (asg_of d).
Proof.
  intros k0 n sol s0 s w Hsol H. induction H as [s Hs|s1 s2 s3 H IH E Hq]; intros B E0 En Hm d Hd; [rewrite E0 in Hd; destruct Hd|].
  pose proof (bos_with_run _ _ _ _ _ _ H) as (Hr & Hq2). destruct (bos_event_new k0 n sol s2 s3 w Hsol (bos_run_ok k0 n sol s1 s2 Hsol B Hr) E En) as (G & Q).
  assert (Hm2 : models_handed w (r_p (br_r s2))) by (intros c id Hc; apply (Hm c id); exact (G _ Hc)).
  destruct (bos_done k0 n sol s2 s3 (br_more _ _ _ _ _ _ (br_refl _ _ _ s2) E)) as (Eo & _). rewrite Eo.
  destruct (Q Hm Hq2 d Hd) as [Hd2|(c & Hc & L)]; [|exists (co_obj c); split; [apply map_nth_error; exact Hc|exact L]].
  exact (IH B E0 (bos_run_end _ _ _ _ _ _ Hr E) Hm2 d Hd2).
Qed.
