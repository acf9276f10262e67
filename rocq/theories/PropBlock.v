(** * C68: the clause blocking a candidate is in the proof *)
From Coq Require Import List Arith ZArith Lia Bool.
From Verif Require Import Base BaseLemmas Sem Ext MTypes MPMinimal MPrepro VeriPB VeriThm MProofs ProofThm ProofRun ProofCut MTracer TracerThm ReformSpec ReformThm ReformRun MProofAlg ReifSpec ReifThm ReifRun ProofCert LinsuCert BlockSpec BlockThm PropProof PropReif.
Import ListNotations.
Local Open Scope nat_scope.

(** A candidate with costs [map co_cost cs] is blocked without enumeration. Every line written is accepted, every clause handed
    to the solver, the blocking clause in particular, is in the proof with its id, the candidate is excluded as a solution, and
    assignments that are better than the candidate in an objective are kept: only the new variables have to be set. *)
Theorem C68_candidate_blocked : forall k0 xs cs witness max_enc nv p fw,
  map fst xs = cs -> (forall i c, nth_error cs i = Some c -> obj_idx (co_obj c) = i) ->
  ready k0 cs witness max_enc nv p fw ->
  (forall x, In x xs -> bound_pre (kof k0 p) nv (fst x) /\ (snd x = true -> co_cost (fst x) <= obj_lb (co_obj (fst x)))) ->
  (* C64 shows that the cut is not accepted otherwise *)
  (forall c, In c cs -> co_cost c <= obj_lb (co_obj c) -> co_reform c <> None -> obj_unit_weight (co_obj c) = 1) ->
  exists cl nv' p', block_candidate (map as_bobj xs) cs witness max_enc nv p = Some (cl, nv', p') /\
    steps_valid k0 (ps_log p') /\ nv <= nv' /\ new_from k0 p' nv' /\
    wok k0 p' /\ bounds_ok k0 (map co_obj cs) p' /\ vmap_ok p' /\ k_order (kof k0 p') = k_order (kof k0 p) /\
    (forall e, In e (k_all (kof k0 p)) -> In e (k_all (kof k0 p'))) /\
    (* the clauses given to the solver; the blocking clause is the last one *)
    (exists new id, ps_reg p' = ps_reg p ++ new ++ [(cl, id)] /\ reg_says (kof k0 p') (new ++ [(cl, id)])) /\
    (* the solution is excluded, once *)
    k_excl (kof k0 p') = map axiom (sol_lits (truncate witness max_enc)) :: k_excl (kof k0 p) /\
    (forall a, proof_holds a (kof k0 p') -> ~ ax_all a (map axiom (sol_lits (truncate witness max_enc)))) /\
    (* what is better in an objective is still there *)
    (forall a, proof_holds a (kof k0 p) -> (exists c, In c cs /\ icost (co_obj c) (on_solver a) < co_cost c) ->
       exists a', agree_old p nv a a' /\ proof_holds a' (kof k0 p')).
Proof.
  intros k0 xs cs witness max_enc nv p fw Exs Hidx R Hpre Huw.
  destruct (block_ok k0 cs witness max_enc Hidx xs nv p fw Exs R Hpre Huw) as (cl & nv' & p' & E & L & W & B & V & N & M & O & X & (new & id & R1 & R2) & Q & H & _).
  exists cl, nv', p'. split; [exact E|]. split; [exact (wk_valid _ _ W)|]. split; [exact L|]. split; [exact N|]. split; [exact W|].
  split; [exact B|]. split; [exact V|]. split; [exact O|]. split; [exact M|].
  split; [|split; [exact X|split; [exact Q|exact H]]].
  exists new, id. split; [exact R1|]. intros c i Hc. apply says_clause. exact (R2 c i Hc).
Qed.
Print Assumptions C68_candidate_blocked.

(** ** Example: the objectives 3*x0 + 5*x1, with outputs x10 (3), x11 (5) and x12 (8), and x2; the candidate has costs 5 and 1 *)
Definition ka_o2 : objective := OUnweighted 0 1 [pos 2] 1 0.
Definition ka_e : penc := mkPenc (pe_offset ra_e) (pe_nout ra_e) true
  (fun b => if b =? 4 then Some [neg 11; neg 12] else None) (pe_details ra_e) (pe_next_higher ra_e) (fun _ => [pos 10; pos 11; neg 12]).
Definition ka_e2 : penc := mkPenc 0 1 true (fun b => if b =? 0 then Some [neg 2] else None) (fun _ => None) S (fun _ => []).
Definition ka_cs : list cobj := [mkCobj ka_e ra_o None 5; mkCobj ka_e2 ka_o2 None 1].
Definition ka_k : chk := mkChk [] (firstn 6 (k_der ra_k)) 7 [obj_order ra_o; obj_order ka_o2] [].
Definition ka_w : assignment := [Some false; Some true; Some true].
Definition ka_fw : list (ax pv) := map axiom [neg 0; pos 1; pos 2; pos 10; pos 11; neg 12].
Lemma ka_wok : wok ka_k (start ka_k).
Proof.
  apply start_wok.
  - cbn. repeat constructor; cbn; intuition discriminate.
  - cbn. repeat (constructor; [cbn; lia|]). constructor.
  - repeat (constructor; [reflexivity|]). constructor.
Qed.
Lemma ka_fw_vals : forall a : pv -> bool, ax_all a ka_fw ->
  a (PVs 0) = false /\ a (PVs 1) = true /\ a (PVs 2) = true /\ a (PVs 10) = true /\ a (PVs 11) = true /\ a (PVs 12) = false.
Proof.
  intros a H. repeat split; match goal with |- a (PVs ?n) = ?b => apply (pv_true a _ (negb b)); apply H; vm_compute; tauto end.
Qed.
Lemma ka_out : forall v o fi oi, pe_details ka_e v = Some (o, (Some fi, Some oi)) -> 0 < v <= 8 -> lvar o <> 0 -> lvar o <> 1 ->
  In (fi, wif_def ra_ts (axiom o) (Z.of_nat v)) (k_all ka_k) -> In (oi, wonly_def ra_ts (axiom o) (Z.of_nat v)) (k_all ka_k) -> has_out ka_k ka_e ra_ts v o.
Proof.
  intros v o fi oi H Hv N0 N1 I1 I2. assert (N : ~ In (PVs (lvar o)) (map ax_var (map snd ra_ts))).
  { cbn. intros [X|[X|[]]]; injection X as X; congruence. }
  assert (E : (Z.of_nat v - Z.of_nat (pe_offset ka_e) = Z.of_nat v)%Z) by (cbn [ka_e ra_e pe_offset]; lia).
  exists fi, oi. constructor; [exact H|cbn [ka_e ra_e pe_offset]; lia|rewrite E; change (wtot ra_ts) with 8%Z; lia|exact N| |]; rewrite E.
  - eexists. split; [exact I1|]. apply wif_concrete; [apply ra_wf|change (wtot ra_ts) with 8%Z; lia|exact N].
  - eexists. split; [exact I2|]. apply wonly_concrete; [apply ra_wf|lia|exact N].
Qed.
Lemma ka_ready : ready ka_k ka_cs ka_w 2 13 (start ka_k) ka_fw.
Proof.
  constructor.
  - reflexivity.
  - exact ka_wok.
  - intros i v l d1 d2 H. discriminate.
  - intros x n [].
  - intros r Hr. split; [|intros []]. intros e He X. cbn in He. decompose [or] He; subst; cbn in X; decompose [or] X; try discriminate;
      match goal with H : PVs _ = PVs r |- _ => injection H as H; lia | H : False |- _ => destruct H end.
  - constructor; [|constructor; [|constructor]].
    + exists (obj_terms ra_o). constructor; cbn [co_reform co_enc co_obj co_cost ka_e pe_buf_empty pe_nout ra_e].
      * split; reflexivity.
      * intros t Ht. apply in_map_iff in Ht. destruct Ht as (lw & <- & _). cbn [fst]. lia.
      * reflexivity.
      * intros _ v olit i d H. cbn [pe_details ka_e ra_e] in H.
        do 9 (try (destruct v as [|v]; try discriminate)); injection H as <- <- <-; eexists;
          (split; [vm_compute; tauto|]); intros a; cbn; unfold lb_val, ax_true; cbn; destruct (a (PVs 0)), (a (PVs 1)), (a (PVs 10)), (a (PVs 11)), (a (PVs 12)); reflexivity.
      * discriminate.
    + exists (obj_terms ka_o2). constructor; try (cbn; intros; discriminate).
      * split; reflexivity.
      * intros t Ht. apply in_map_iff in Ht. destruct Ht as (lw & <- & _). cbn [fst]. lia.
      * intros H. exfalso. apply H. reflexivity.
  - vm_compute. reflexivity.
  - intros l r H E. vm_compute in H. decompose [or] H; subst; try discriminate; try (injection E as <-; lia); contradiction.
  - exists (fun x => match x with PVs 1 | PVs 2 | PVs 10 | PVs 11 => true | _ => false end).
    intros l H. vm_compute in H. decompose [or] H; subst; try reflexivity. contradiction.
  - intros a Ha. apply ka_fw_vals in Ha. destruct Ha as (A0 & A1 & A2 & A3 & A4 & A5). split.
    + intros e He. cbn in He. decompose [or] He; subst; try contradiction; unfold lb_holds; cbn; unfold ax_true; cbn; rewrite ?A0, ?A1, ?A2, ?A3, ?A4, ?A5; cbn; lia.
    + intros c [<-|[<-|[]]]; cbn; unfold lit_true; cbn; unfold on_solver; rewrite ?A0, ?A1, ?A2; reflexivity.
  - constructor; [|constructor; [|constructor]]; intros _ a Ha; apply ka_fw_vals in Ha; destruct Ha as (A0 & A1 & A2 & A3 & A4 & A5).
    + split; [discriminate|]. intros olit i _ H. cbn in H. injection H as <- <-. unfold ax_true. cbn. rewrite A4. reflexivity.
    + split; [|discriminate]. intros x xs _ H. cbn in H. injection H as <- <-. unfold ax_true. cbn. rewrite A2. reflexivity.
  - apply (upt_step _ _ _ (wif_def ra_ts (axiom (pos 10)) 3) (axiom (pos 10))); [vm_compute; tauto| |].
    { intros a Ha Hd. assert (A1 : a (PVs 1) = true) by (apply (pv_true a _ false); apply Ha; vm_compute; tauto).
      unfold lb_holds in Hd. cbn in Hd. unfold ax_true in *. cbn in *. rewrite A1 in Hd. destruct (a (PVs 10)); [reflexivity|]. destruct (a (PVs 0)); cbn in Hd; lia. }
    apply (upt_step _ _ _ (wif_def ra_ts (axiom (pos 11)) 5) (axiom (pos 11))); [vm_compute; tauto| |].
    { intros a Ha Hd. assert (A1 : a (PVs 1) = true) by (apply (pv_true a _ false); apply Ha; vm_compute; tauto).
      unfold lb_holds in Hd. cbn in Hd. unfold ax_true in *. cbn in *. rewrite A1 in Hd. destruct (a (PVs 11)); [reflexivity|]. destruct (a (PVs 0)); cbn in Hd; lia. }
    apply (upt_step _ _ _ (wonly_def ra_ts (axiom (pos 12)) 8) (axiom (neg 12))); [vm_compute; tauto| |].
    { intros a Ha Hd. assert (A0 : a (PVs 0) = false) by (apply (pv_true a _ true); apply Ha; vm_compute; tauto).
      unfold lb_holds in Hd. cbn in Hd. unfold ax_true in *. cbn in *. rewrite A0 in Hd. destruct (a (PVs 12)); [|reflexivity]. destruct (a (PVs 1)); cbn in Hd; lia. }
    apply upt_done. intros l. vm_compute. tauto.
Qed.
(** x13 is defined as "the first objective is below 5"; the clause says x13 or not x2 *)
Example ka_blocked : exists p', block_candidate (map as_bobj (map (fun c => (c, false)) ka_cs)) ka_cs ka_w 2 13 (start ka_k) = Some ([pos 13; neg 2], 14, p') /\
  steps_valid ka_k (ps_log p') /\ map fst (ps_reg p') = [[neg 13; neg 11]; [neg 13; neg 12]; [pos 13; neg 2]] /\
  (forall a, proof_holds a (kof ka_k p') -> ~ ax_all a (map axiom [neg 0; pos 1; pos 2])).
Proof.
  destruct (C68_candidate_blocked ka_k (map (fun c => (c, false)) ka_cs) ka_cs ka_w 2 13 (start ka_k) ka_fw)
    as (cl & nv' & p' & E & V & _ & _ & _ & _ & _ & _ & _ & _ & _ & X & _).
  - reflexivity.
  - intros [|[|i]] c H; cbn in H; [injection H as <-; reflexivity|injection H as <-; reflexivity|destruct i; discriminate].
  - exact ka_ready.
  - intros x [<-|[<-|[]]]; (split; [|discriminate]); cbn [fst].
    + split; [intros l w [H|[H|[]]]; injection H as <- _; cbn; lia|]. split; [reflexivity|]. split; [cbn; lia|]. intros _.
      exists [neg 11; neg 12]. split; [reflexivity|]. split; [intros a [<-|[<-|[]]]; cbn; lia|]. split; [discriminate|]. split; [discriminate|].
      exists ra_ts. split; [exact ra_wf|]. split; [|repeat constructor; cbn; intuition discriminate].
      split; [apply (ka_out 5 (pos 11) 3 4); [reflexivity|lia|discriminate|discriminate|cbn; tauto|cbn; tauto]|].
      split; [cbn; lia|]. split; [apply (ka_out 8 (pos 12) 5 6); [reflexivity|lia|discriminate|discriminate|cbn; tauto|cbn; tauto]|exact Logic.I].
    + split; [intros l w [H|[]]; injection H as <- _; cbn; lia|]. split; [reflexivity|]. split; [cbn; lia|]. intros _.
      exists [neg 2]. split; [reflexivity|]. split; [intros a [<-|[]]; cbn; lia|]. left. exists (pos 2), 1. split; reflexivity.
  - intros c [<-|[<-|[]]]; cbn; congruence.
  - assert (Q : block_candidate (map as_bobj (map (fun c => (c, false)) ka_cs)) ka_cs ka_w 2 13 (start ka_k) = Some ([pos 13; neg 2], 14, p') /\
       map fst (ps_reg p') = [[neg 13; neg 11]; [neg 13; neg 12]; [pos 13; neg 2]]).
    { vm_compute in E. injection E as _ _ <-. split; vm_compute; reflexivity. }
    destruct Q as (Q1 & Q2). exists p'. split; [exact Q1|]. split; [exact V|]. split; [exact Q2|exact X].
Qed.

(** ** A single assumption with buffered inputs *)
(** The objective is x0 + 2*x1 + 10*x2, x2 is still in the buffer of the encoding, and the candidate has cost 10. The only
    assumption bounding the objective by 9 is -x2, so the blocking clause is -x2. The cut is made from the bound literal of the
    proof instead, and its definition is missing in the hints of the clause: the line is not accepted. *)
Definition kb_o : objective := OWeighted 0 [(pos 0, 1); (pos 1, 2); (pos 2, 10)] 0 0.
Definition kb_e : penc := mkPenc 0 3 false (fun b => if b =? 9 then Some [neg 2] else None) (fun _ => None) S (fun _ => []).
Definition kb_cs : list cobj := [mkCobj kb_e kb_o None 10].
Definition kb_k : chk := mkChk [] [] 1 [obj_order kb_o] [].
Definition kb_w : assignment := [Some false; Some false; Some true].
Lemma kb_ready : ready kb_k kb_cs kb_w 2 3 (start kb_k) (map axiom [neg 0; neg 1; pos 2]).
Proof.
  constructor.
  - reflexivity.
  - apply start_wok; constructor.
  - intros i v l d1 d2 H. discriminate.
  - intros x n [].
  - intros r Hr. split; [intros e []|intros []].
  - constructor; [|constructor]. exists (obj_terms kb_o). constructor; try (cbn; intros; discriminate).
    + split; reflexivity.
    + intros t Ht. apply in_map_iff in Ht. destruct Ht as (lw & <- & _). cbn [fst]. lia.
    + reflexivity.
  - vm_compute. reflexivity.
  - intros l r H E. vm_compute in H. decompose [or] H; subst; try discriminate; try (injection E as <-; lia); contradiction.
  - exists (fun x => match x with PVs 2 => true | _ => false end). intros l H. vm_compute in H. decompose [or] H; subst; try reflexivity. contradiction.
  - intros a Ha. split; [intros e []|]. intros c [<-|[]].
    assert (A0 : a (PVs 0) = false) by (apply (pv_true a _ true); apply Ha; vm_compute; tauto).
    assert (A1 : a (PVs 1) = false) by (apply (pv_true a _ true); apply Ha; vm_compute; tauto).
    assert (A2 : a (PVs 2) = true) by (apply (pv_true a _ false); apply Ha; vm_compute; tauto).
    cbn. unfold lit_true. cbn. unfold on_solver. rewrite A0, A1, A2. reflexivity.
  - constructor; [|constructor]. intros _ a Ha. split; discriminate.
  - apply upt_done. intros l. vm_compute. tauto.
Qed.
Theorem C68_single_buffered_refuted : exists k0 c witness max_enc nv p fw a cl nv' p',
  ready k0 [c] witness max_enc nv p fw /\ obj_idx (co_obj c) = 0 /\ obj_lb (co_obj c) < co_cost c /\
  (* the only assumption is a heavy input in the buffer, it is equivalent to an objective value below the cost *)
  pe_buf_empty (co_enc c) = false /\ pe_enforce_ub (co_enc c) (co_cost c - 1) = Some [a] /\ heavy (co_obj c) (co_cost c) (lnot a) /\
  (forall x, lit_true x a = true <-> icost (co_obj c) x < co_cost c) /\
  block_candidate [as_bobj (c, false)] [c] witness max_enc nv p = Some (cl, nv', p') /\
  ~ steps_valid k0 (ps_log p').
Proof.
  destruct (block_candidate [as_bobj (mkCobj kb_e kb_o None 10, false)] kb_cs kb_w 2 3 (start kb_k)) as [[[cl nv'] p']|] eqn:E.
  2:{ vm_compute in E. discriminate. }
  exists kb_k, (mkCobj kb_e kb_o None 10), kb_w, 2, 3, (start kb_k), (map axiom [neg 0; neg 1; pos 2]), (neg 2), cl, nv', p'.
  split; [exact kb_ready|]. split; [reflexivity|]. split; [cbn; lia|]. split; [reflexivity|]. split; [reflexivity|].
  split; [exists 10; split; [cbn; tauto|cbn; lia]|].
  split; [intros x; cbn; unfold lit_true; cbn; destruct (x 0), (x 1), (x 2); cbn; split; intros H; try reflexivity; try discriminate; lia|].
  split; [exact E|].
  assert (L : exists n, ps_log p' = firstn n (ps_log p') ++ SRup (clause_pb [neg 2]) [CAbs 5] :: skipn (S n) (ps_log p') /\
     opt_all (map (id_get (k_all (steps_next kb_k (firstn n (ps_log p')))) (k_next (steps_next kb_k (firstn n (ps_log p'))))) [CAbs 5])
                = Some [lb_clause [mkAx (PVp 0) true]]).
  { vm_compute in E. injection E as _ _ <-. exists 7. split; vm_compute; reflexivity. }
  destruct L as (n & L & H). rewrite L. intros X. apply steps_valid_app in X. destruct X as (_ & (cs & X1 & X2) & _).
  rewrite H in X1. injection X1 as <-.
  pose proof (rup_sound _ _ X2 (fun v => match v with PVs 2 => true | _ => false end)) as Y.
  assert (Z : lb_holds (fun v => match v with PVs 2 => true | _ => false end) (clause_pb [neg 2])).
  { apply Y. intros d [<-|[]]. vm_compute. discriminate. }
  vm_compute in Z. apply Z. reflexivity.
Qed.
Print Assumptions C68_single_buffered_refuted.
