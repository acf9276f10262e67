(** * Properties of reified bounds and certified lower bounds in the proof *)
From Coq Require Import List Arith ZArith Lia Bool Sorted.
From Verif Require Import Base BaseLemmas Sem Ext MTypes MPMinimal MPrepro VeriPB VeriThm MProofs ProofThm ProofRun ProofCut MTracer TracerThm ReformSpec ReformThm ReformRun MProofAlg ReifSpec ReifThm ReifRun ProofCert LinsuCert.
Import ListNotations.
Local Open Scope Z_scope.

(** ** The order of the proof *)
Lemma order_refl_objs : forall objs a, ord_holds (map obj_order objs) a a.
Proof. intros objs a. apply ord_holds_objs. apply Forall_forall. intros o _. lia. Qed.
Lemma order_free_objs : forall objs r, (forall o l w, In o objs -> In (l, w) (obj_iter o) -> lvar l <> r) -> ord_free (map obj_order objs) (PVs r).
Proof.
  intros objs r H c t x Hc Ht E X. apply in_map_iff in Hc. destruct Hc as (o & <- & Ho). unfold obj_order in Ht. cbn [lb_terms] in Ht.
  apply in_flat_map in Ht. destruct Ht as ([l w] & Hl & Ht). cbn [fst snd] in Ht. injection X as X.
  destruct Ht as [<-|[<-|[]]]; cbn [snd ax_var] in E; [|discriminate]. injection E as E. apply (H o l w Ho Hl). congruence.
Qed.
Lemma says_clause : forall k id ls, In (id, lb_clause ls) (k_all k) -> says k id ls.
Proof. intros k id ls H. exists (lb_clause ls). split; [exact H|]. intros a. apply lb_clause_holds. Qed.
Lemma reg_says_old : forall k k' rs, (forall x, In x (k_all k) -> In x (k_all k')) -> reg_says k rs -> reg_says k' rs.
Proof. intros k k' rs M H c id X. destruct (H c id X) as (C & I & Q). exists C. split; [exact (M _ I)|exact Q]. Qed.

(** ** C66: reified bounds *)
(** Without buffered inputs. The literals of the bound are the negated outputs of the encoding from [value] on. *)
Theorem C66_reified_bound : forall k0 objs p o e ts value r as_,
  pe_buf_empty e = true -> wok k0 p -> k_order (kof k0 p) = map obj_order objs ->
  (forall o l w, In o objs -> In (l, w) (obj_iter o) -> lvar l <> r) -> unused (kof k0 p) r -> reg_says (kof k0 p) (ps_reg p) ->
  w_wf ts -> outs_from (kof k0 p) e ts value as_ -> NoDup (map lvar as_) ->
  exists id p', certify_assump_reification o e value (mkLit r false) as_ p = Some (id, p') /\
    (* every line is accepted *)
    steps_valid k0 (ps_log p') /\ wok k0 p' /\
    (* the clauses the solver gets: the new literal implies each assumption *)
    (exists ids, length ids = length as_ /\ ps_reg p' = ps_reg p ++ combine (map (fun a => [mkLit r true; a]) as_) ids) /\
    reg_says (kof k0 p') (ps_reg p') /\
    (* the returned clause *)
    (exists a, In a as_ /\ says (kof k0 p') id [axiom (lnot a); axiom (mkLit r false)]) /\
    (* nothing is lost: every assignment is extended by a value of the new variable *)
    (forall x, proof_holds x (kof k0 p) -> exists b, proof_holds (put x (PVs r) b) (kof k0 p')) /\
    (* the new literal is the bound *)
    (forall x, proof_holds x (kof k0 p') -> (x (PVs r) = true <-> lb_sum x ts < Z.of_nat value - Z.of_nat (pe_offset e))).
Proof.
  intros k0 objs p o e ts value r as_ Hb W Ho Hv Hu Hreg Hw Hf Hn. destruct as_ as [|a as_]; [destruct Hf|].
  destruct (reif_ok k0 p e ts value r a as_ W) as (id & p' & E & W' & M & _ & _ & _ & _ & _ & _ & I & (ids & L & R & H) & X & Y); try assumption.
  { intros x. rewrite Ho. apply order_refl_objs. }
  { rewrite Ho. apply order_free_objs. exact Hv. }
  exists id, p'. unfold certify_assump_reification. rewrite Hb. split; [exact E|]. split; [exact (wk_valid _ _ W')|]. split; [exact W'|].
  split; [exists ids; split; [exact L|exact R]|]. split.
  { intros c i Hc. rewrite R in Hc. apply in_app_or in Hc. destruct Hc as [Hc|Hc].
    - destruct (Hreg c i Hc) as (C & IC & Q). exists C. split; [exact (M _ IC)|exact Q].
    - apply says_clause. exact (H c i Hc). }
  split; [exists a; split; [left; reflexivity|]; exact (says_clause _ _ _ I)|].
  split; [intros x Hx; exists (ax_true x (axiom a)); exact (X x Hx)|exact Y].
Qed.
Print Assumptions C66_reified_bound.

(** With buffered inputs: inputs that are heavy enough alone, and the outputs of the encoded part *)
Theorem C66_reified_bound_buffered : forall k0 objs p o e value r as_,
  pe_buf_empty e = false -> wok k0 p -> k_order (kof k0 p) = map obj_order objs ->
  (forall o l w, In o objs -> In (l, w) (obj_iter o) -> lvar l <> r) -> unused (kof k0 p) r -> reg_says (kof k0 p) (ps_reg p) ->
  (forall o1 o2, In o1 objs -> In o2 objs -> obj_idx o1 = obj_idx o2 -> o1 = o2) -> In o objs -> bounds_ok k0 objs p ->
  buf_from (kof k0 p) e o value value as_ ->
  exists id p', certify_assump_reification o e value (mkLit r false) as_ p = Some (id, p') /\
    steps_valid k0 (ps_log p') /\ wok k0 p' /\ bounds_ok k0 objs p' /\
    (exists ids, length ids = length as_ /\ ps_reg p' = ps_reg p ++ combine (map (fun a => [mkLit r true; a]) as_) ids) /\
    reg_says (kof k0 p') (ps_reg p') /\
    (* the returned clause: the bound or the new literal; [ideal] is the literal of the bound *)
    (exists ideal d1 d2, bound_get (ps_bounds p') (obj_idx o, value) = Some (ideal, d1, d2) /\ says (kof k0 p') id [axiom (mkLit r false); ideal]) /\
    (forall x, proof_holds x (kof k0 p) -> exists x', proof_holds x' (kof k0 p') /\
       forall y, y <> PVs r -> (forall m, y = PVp m -> (m < ps_nextvar p)%nat) -> x' y = x y) /\
    (forall x, proof_holds x (kof k0 p') -> (x (PVs r) = true <-> (icost o (on_solver x) < value)%nat)).
Proof.
  intros k0 objs p o e value r as_ Hb W Ho Hv Hu Hreg Hidx Hin B Hbuf.
  destruct (reif_buf_ok k0 objs p e o value r as_ W) as (id & p' & n & E & W' & B' & M & _ & _ & _ & (d1 & d2 & G) & _ & I & (ids & L & R & H) & X & Y); try assumption.
  { intros x. rewrite Ho. apply order_refl_objs. }
  { rewrite Ho. apply order_free_objs. exact Hv. }
  { intros l w Hl. exact (Hv o l w Hin Hl). }
  exists id, p'. unfold certify_assump_reification. rewrite Hb. split; [exact E|]. split; [exact (wk_valid _ _ W')|]. split; [exact W'|]. split; [exact B'|].
  split; [exists ids; split; [exact L|exact R]|]. split.
  { intros c i Hc. rewrite R in Hc. apply in_app_or in Hc. destruct Hc as [Hc|Hc].
    - destruct (Hreg c i Hc) as (C & IC & Q). exists C. split; [exact (M _ IC)|exact Q].
    - apply says_clause. exact (H c i Hc). }
  split; [exists (mkAx (PVp n) false), d1, d2; split; [exact G|exact (says_clause _ _ _ I)]|].
  split; [|exact Y]. intros x Hx. destruct (X x Hx) as (x' & Q & Hx'). exists x'. split; [exact Hx'|].
  intros y Hy1 Hy2. apply Q; assumption.
Qed.
Print Assumptions C66_reified_bound_buffered.

(** ** C67: the lower bound certified by a core of linear search *)
(** [base] are the assumptions of the caller, [first :: outs] the outputs of the encoding from [cost] on; the core consists of
    negated base assumptions followed by outputs, both in the order of the assumptions *)
Theorem C67_lower_bound : forall k0 p o e fuel ts base bcore first outs ocore cost core_id,
  pe_buf_empty e = true -> wok k0 p -> w_wf ts -> chain (kof k0 p) e ts cost (first :: outs) ->
  NoDup (map lvar (first :: outs)) -> NoDup (map lvar base) -> (forall b, In b base -> ~ In (lvar b) (map lvar (first :: outs))) ->
  subl bcore base -> subl ocore (first :: outs) -> ocore <> [] ->
  (* a core that is a single output is the first output *)
  (bcore = [] -> length ocore = 1%nat -> ocore = [first]) ->
  derived (kof k0 p) core_id (map axiom (map lnot bcore ++ ocore)) -> (length (first :: outs) <= fuel)%nat ->
  exists id p', linsu_certify e fuel o base cost (map lnot bcore ++ ocore) core_id p = Some (id, p') /\
    steps_valid k0 (ps_log p') /\ wok k0 p' /\ ps_reg p' = ps_reg p /\
    (forall x, In x (k_all (kof k0 p)) -> In x (k_all (kof k0 p'))) /\
    (forall a, proof_holds a (kof k0 p) -> proof_holds a (kof k0 p')) /\
    (* the returned clause: a base assumption is false or the first output is true; a unit core is returned as it is *)
    (derived (kof k0 p') id (map (fun b => axiom (lnot b)) base ++ [axiom first]) \/
     bcore = [] /\ ocore = [first] /\ id = core_id) /\
    forall a, proof_holds a (kof k0 p') -> (forall b, In b base -> ax_true a (axiom b) = true) ->
      Z.of_nat cost - Z.of_nat (pe_offset e) <= lb_sum a ts.
Proof.
  intros k0 p o e fuel ts base bcore first outs ocore cost core_id Hb W Hw Hc Nc Nb Db Sb So Hne Hu Hd Hf.
  destruct (linsu_ok k0 p e fuel ts base bcore first outs ocore cost core_id W Hw Hc Nc Nb Db Sb So Hne) as (id & p' & E & F & R & D & X); try assumption.
  { intros E. apply Hu. destruct bcore as [|x l]; [reflexivity|]. apply (f_equal (@length lit)) in E. rewrite app_length in E. cbn [map length] in E. lia. }
  exists id, p'. unfold linsu_certify. rewrite Hb. split; [exact E|]. pose proof (fr_wok _ _ _ F) as W'.
  split; [exact (wk_valid _ _ W')|]. split; [exact W'|]. split; [exact R|]. split; [exact (fr_old _ _ _ F)|]. split; [exact (fr_sound _ _ _ F)|].
  split; [|exact X]. destruct D as [D|(D1 & D2 & D3 & _)]; [left; exact D|right; tauto].
Qed.
Print Assumptions C67_lower_bound.

(** With buffered inputs: [hs] are inputs that are heavy enough alone, [os] outputs of the encoded part. The outputs have
    ascending variables ([C67_output_order_refuted] shows that this is needed). *)
Theorem C67_lower_bound_buffered : forall k0 objs p e fuel o base bcore hs ol s outs os cost core_id,
  pe_buf_empty e = false -> wok k0 p -> k_order (kof k0 p) = map obj_order objs ->
  (forall o1 o2, In o1 objs -> In o2 objs -> obj_idx o1 = obj_idx o2 -> o1 = o2) -> In o objs -> bounds_ok k0 objs p ->
  pe_details e cost = Some (ol, s) -> (forall h, In h hs -> heavy o cost h /\ (lvar h < lvar ol)%nat) ->
  part_chain (kof k0 p) e o cost cost outs -> StronglySorted below outs -> (length outs <= fuel)%nat ->
  NoDup base -> subl bcore base -> subl os outs -> hs ++ os <> [] -> (forall b, In b base -> ~ In (lnot b) (hs ++ os)) ->
  says (kof k0 p) core_id (map axiom (map lnot bcore ++ hs ++ os)) ->
  exists id p', linsu_certify e fuel o base cost (map lnot bcore ++ hs ++ os) core_id p = Some (id, p') /\
    steps_valid k0 (ps_log p') /\ wok k0 p' /\ bounds_ok k0 objs p' /\ ps_reg p' = ps_reg p /\
    (forall x, In x (k_all (kof k0 p)) -> In x (k_all (kof k0 p'))) /\
    (forall x, proof_holds x (kof k0 p) -> exists x', proof_holds x' (kof k0 p') /\
       forall y, (forall m, y = PVp m -> (m < ps_nextvar p)%nat) -> x' y = x y) /\
    (* the returned clause: a base assumption is false or the bound holds; [ideal] is the literal of the bound *)
    (exists ideal d1 d2, bound_get (ps_bounds p') (obj_idx o, cost) = Some (ideal, d1, d2) /\
       says (kof k0 p') id (map (fun b => axiom (lnot b)) base ++ [ideal])) /\
    forall a, proof_holds a (kof k0 p') -> (forall b, In b base -> ax_true a (axiom b) = true) -> (cost <= icost o (on_solver a))%nat.
Proof.
  intros k0 objs p e fuel o base bcore hs ol s outs os cost core_id Hb W Ho Hidx Hin B Ed Hh Hc Hs Hf Nb Sb So Hne Db (C & IC & HC).
  destruct (linsu_buf_ok k0 objs p e fuel o base bcore hs ol s outs os cost core_id W) as (id & p' & n & E & W' & B' & M & _ & _ & _ & R & (d1 & d2 & G) & I & X & Y); try assumption.
  { intros x. rewrite Ho. apply order_refl_objs. }
  { exists C. split; [exact IC|]. intros a Ha. apply HC. exact Ha. }
  exists id, p'. unfold linsu_certify. rewrite Hb. split; [exact E|]. split; [exact (wk_valid _ _ W')|]. split; [exact W'|]. split; [exact B'|].
  split; [exact R|]. split; [exact M|]. split; [exact X|]. split; [exists (mkAx (PVp n) false), d1, d2; split; [exact G|exact (says_clause _ _ _ I)]|exact Y].
Qed.
Print Assumptions C67_lower_bound_buffered.

(** ** Examples *)
(** the objective 3*x0 + 5*x1; the outputs of its encoding are x10 (3), x11 (5) and x12 (8). Constraint 7 is a core:
    x20, the cost is at least 5 or it is at least 8. *)
Definition ra_o : objective := OWeighted 0 [(pos 0, 3%nat); (pos 1, 5%nat)] 0 0.
Definition ra_ts : list (Z * ax pv) := [(3, axiom (pos 0)); (5, axiom (pos 1))].
Definition ra_e : penc := mkPenc 0 3 true (fun _ => None)
  (fun v => match v with
            | 3 => Some (pos 10, (Some 1%nat, Some 2%nat)) | 5 => Some (pos 11, (Some 3%nat, Some 4%nat))
            | 8 => Some (pos 12, (Some 5%nat, Some 6%nat)) | _ => None end)%nat
  (fun v => if v <? 3 then 3 else if v <? 5 then 5 else if v <? 8 then 8 else S v)%nat (fun _ => []).
Definition ra_k : chk := mkChk []
  [(1%nat, wif_def ra_ts (axiom (pos 10)) 3); (2%nat, wonly_def ra_ts (axiom (pos 10)) 3);
   (3%nat, wif_def ra_ts (axiom (pos 11)) 5); (4%nat, wonly_def ra_ts (axiom (pos 11)) 5);
   (5%nat, wif_def ra_ts (axiom (pos 12)) 8); (6%nat, wonly_def ra_ts (axiom (pos 12)) 8);
   (7%nat, lb_clause [axiom (pos 20); axiom (pos 11); axiom (pos 12)])] 8 [obj_order ra_o] [].
Definition start (k : chk) : pst := mkPst (k_next k) 0 [] [] [] [].
Lemma start_wok : forall k, NoDup (map fst (k_all k)) -> Forall (fun e => (fst e < k_next k)%nat) (k_all k) ->
  Forall (fun e => forallb (fun v => match v with PVs _ => true | PVp _ => false end) (cvars (snd e)) = true) (k_all k) -> wok k (start k).
Proof.
  intros k H1 H2 H3. constructor; [|exact Logic.I|reflexivity|].
  - split; [|rewrite Forall_forall in H2; exact H2]. intros i c c'. change (kof k (start k)) with k. clear -H1.
    induction (k_all k) as [|[j d] l IH]; [intros []|]. cbn [map fst] in H1. apply NoDup_cons_iff in H1. destruct H1 as (H1 & H2).
    intros [X|X] [Y|Y].
    + congruence.
    + injection X as -> ->. exfalso. apply H1. exact (in_map fst _ _ Y).
    + injection Y as -> ->. exfalso. apply H1. exact (in_map fst _ _ X).
    + exact (IH H2 X Y).
  - intros e n He Hn. exfalso. rewrite Forall_forall in H3. specialize (H3 e He). rewrite forallb_forall in H3. specialize (H3 _ Hn). discriminate.
Qed.
Lemma ra_wok : wok ra_k (start ra_k).
Proof.
  apply start_wok.
  - cbn. repeat constructor; cbn; intuition discriminate.
  - cbn. repeat (constructor; [cbn; lia|]). constructor.
  - repeat (constructor; [reflexivity|]). constructor.
Qed.
Lemma ra_wf : w_wf ra_ts.
Proof. split; [repeat constructor; cbn; intuition discriminate|]. intros t [<-|[<-|[]]]; cbn; lia. Qed.
Lemma ra_out : forall v o fi oi, pe_details ra_e v = Some (o, (Some fi, Some oi)) -> (0 < v <= 8)%nat -> lvar o <> 0%nat -> lvar o <> 1%nat ->
  In (fi, wif_def ra_ts (axiom o) (Z.of_nat v)) (k_all ra_k) -> In (oi, wonly_def ra_ts (axiom o) (Z.of_nat v)) (k_all ra_k) -> has_out ra_k ra_e ra_ts v o.
Proof.
  intros v o fi oi H Hv N0 N1 I1 I2. assert (N : ~ In (PVs (lvar o)) (map ax_var (map snd ra_ts))).
  { cbn. intros [X|[X|[]]]; injection X as X; congruence. }
  assert (E : Z.of_nat v - Z.of_nat (pe_offset ra_e) = Z.of_nat v) by (cbn [ra_e pe_offset]; lia).
  exists fi, oi. constructor; [exact H|cbn [ra_e pe_offset]; lia|rewrite E; change (wtot ra_ts) with 8; lia|exact N| |]; rewrite E.
  - eexists. split; [exact I1|]. apply wif_concrete; [apply ra_wf|change (wtot ra_ts) with 8; lia|exact N].
  - eexists. split; [exact I2|]. apply wonly_concrete; [apply ra_wf|lia|exact N].
Qed.
Lemma ra_out5 : has_out ra_k ra_e ra_ts 5 (pos 11).
Proof. apply (ra_out 5 (pos 11) 3 4); [reflexivity|lia|discriminate|discriminate|cbn; tauto|cbn; tauto]. Qed.
Lemma ra_out8 : has_out ra_k ra_e ra_ts 8 (pos 12).
Proof. apply (ra_out 8 (pos 12) 5 6); [reflexivity|lia|discriminate|discriminate|cbn; tauto|cbn; tauto]. Qed.
(** x30 is defined as "the objective is below 5" *)
Example ra_reif : exists p', certify_assump_reification ra_o ra_e 5 (mkLit 30 false) [neg 11; neg 12] (start ra_k) = Some (9%nat, p') /\
  steps_valid ra_k (ps_log p') /\ ps_reg p' = [([neg 30; neg 11], 8%nat); ([neg 30; neg 12], 11%nat)] /\
  forall x, proof_holds x (kof ra_k p') -> (x (PVs 30) = true <-> lb_sum x ra_ts < 5).
Proof.
  destruct (C66_reified_bound ra_k [ra_o] (start ra_k) ra_o ra_e ra_ts 5 30 [neg 11; neg 12]) as (id & p' & E & V & _ & _ & _ & _ & _ & Y).
  - reflexivity.
  - exact ra_wok.
  - reflexivity.
  - intros o l w [<-|[]] [H|[H|[]]]; injection H as <- _; discriminate.
  - intros e He. cbn in He. decompose [or] He; subst; cbn; intuition discriminate.
  - intros c id [].
  - exact ra_wf.
  - split; [exact ra_out5|]. split; [cbn; lia|]. split; [exact ra_out8|exact Logic.I].
  - repeat constructor; cbn; intuition discriminate.
  - assert (Q : certify_assump_reification ra_o ra_e 5 (mkLit 30 false) [neg 11; neg 12] (start ra_k) = Some (9%nat, p') /\
               ps_reg p' = [([neg 30; neg 11], 8%nat); ([neg 30; neg 12], 11%nat)]).
    { vm_compute in E. injection E as <- <-. split; [vm_compute; reflexivity|reflexivity]. }
    exists p'. destruct Q as (Q1 & Q2). split; [exact Q1|]. split; [exact V|]. split; [exact Q2|exact Y].
Qed.
(** the core {x20, x11, x12} under the assumption -x20 certifies the bound 5 *)
Example ra_linsu : exists p', linsu_certify ra_e 3 ra_o [neg 20] 5 [pos 20; pos 11; pos 12] 7 (start ra_k) = Some (9%nat, p') /\
  steps_valid ra_k (ps_log p') /\ derived (kof ra_k p') 9 [axiom (pos 20); axiom (pos 11)] /\
  forall a, proof_holds a (kof ra_k p') -> a (PVs 20) = false -> 5 <= lb_sum a ra_ts.
Proof.
  destruct (C67_lower_bound ra_k (start ra_k) ra_o ra_e 3 ra_ts [neg 20] [neg 20] (pos 11) [pos 12] [pos 11; pos 12] 5 7)
    as (id & p' & E & V & _ & _ & _ & _ & D & Y).
  - reflexivity.
  - exact ra_wok.
  - exact ra_wf.
  - split; [exact ra_out5|]. split; [cbn; lia|]. split; [exact ra_out8|]. split; [congruence|exact Logic.I].
  - repeat constructor; cbn; intuition discriminate.
  - repeat constructor; cbn; intuition discriminate.
  - intros b [<-|[]]; cbn; intuition discriminate.
  - repeat constructor.
  - repeat constructor.
  - discriminate.
  - discriminate.
  - exists (lb_clause [axiom (pos 20); axiom (pos 11); axiom (pos 12)]). split; [vm_compute; tauto|].
    apply clause_proper. repeat constructor; cbn; intuition discriminate.
  - cbn. lia.
  - assert (Q : linsu_certify ra_e 3 ra_o [neg 20] 5 [pos 20; pos 11; pos 12] 7 (start ra_k) = Some (9%nat, p') /\ id = 9%nat).
    { change (map lnot [neg 20] ++ [pos 11; pos 12]) with [pos 20; pos 11; pos 12] in E. rewrite E. vm_compute in E. injection E as <- _. split; reflexivity. }
    destruct Q as (Q1 & ->). exists p'. split; [exact Q1|]. split; [exact V|]. split.
    + destruct D as [D|(D & _)]; [exact D|discriminate].
    + intros a Ha H0. apply (Y a Ha). intros b [<-|[]]. unfold ax_true. cbn. rewrite H0. reflexivity.
Qed.

(** the objective 5*x0 + 7*x1 + 10*x2 + 20*x3 with x3 in the buffer of the encoding; [order] are the variables of the outputs
    5, 7 and 10; constraint 4 is a core: x3, the cost of the encoded part is at least 5 or it is at least 10 *)
Definition rb_o : objective := OWeighted 0 [(pos 0, 5%nat); (pos 1, 7%nat); (pos 2, 10%nat); (pos 3, 20%nat)] 0 0.
Definition rb_ts : list (Z * ax pv) := [(5, axiom (pos 0)); (7, axiom (pos 1)); (10, axiom (pos 2))].
Definition rb_e (o5 o7 o10 : nat) : penc := mkPenc 0 8 false (fun _ => None)
  (fun v => match v with
            | 5 => Some (pos o5, (None, Some 1%nat)) | 7 => Some (pos o7, (None, Some 2%nat))
            | 10 => Some (pos o10, (None, Some 3%nat)) | _ => None end)%nat
  (fun v => if v <? 5 then 5 else if v <? 7 then 7 else if v <? 10 then 10 else S v)%nat (fun _ => []).
Definition rb_k (o5 o7 o10 : nat) : chk := mkChk []
  [(1%nat, wonly_def rb_ts (axiom (pos o5)) 5); (2%nat, wonly_def rb_ts (axiom (pos o7)) 7); (3%nat, wonly_def rb_ts (axiom (pos o10)) 10);
   (4%nat, lb_clause [axiom (pos 3); axiom (pos o5); axiom (pos o10)])] 5 [obj_order rb_o] [].
Lemma rb_wok : forall o5 o7 o10, wok (rb_k o5 o7 o10) (start (rb_k o5 o7 o10)).
Proof.
  intros o5 o7 o10. apply start_wok.
  - cbn. repeat constructor; cbn; intuition discriminate.
  - cbn. repeat (constructor; [cbn; lia|]). constructor.
  - repeat (constructor; [reflexivity|]). constructor.
Qed.
Lemma rb_part : forall k n l v oi, In (oi, wonly_def rb_ts (axiom l) v) (k_all k) -> Z.of_nat n <= v -> part_out k rb_o n l oi.
Proof.
  intros k n l v oi H Hv. exists (wonly_def rb_ts (axiom l) v), rb_ts, v. split; [exact H|]. split; [|split; [exact Hv|]].
  - intros a. unfold lb_val, wonly_def. cbn [lb_terms lb_bound]. rewrite lb_sum_app. cbn [lb_sum]. lia.
  - intros a. cbn. unfold ax_true, lit_true, on_solver. cbn. destruct (a (PVs 0)), (a (PVs 1)), (a (PVs 2)), (a (PVs 3)); cbn; lia.
Qed.
Lemma rb_chain : forall o5 o7 o10, part_chain (rb_k o5 o7 o10) (rb_e o5 o7 o10) rb_o 5 5 [pos o5; pos o7; pos o10].
Proof.
  intros o5 o7 o10. split; [eexists; eexists; split; [reflexivity|apply (rb_part _ _ _ 5); [cbn; tauto|cbn; lia]]|].
  split; [eexists; eexists; split; [reflexivity|apply (rb_part _ _ _ 7); [cbn; tauto|cbn; lia]]|].
  split; [eexists; eexists; split; [reflexivity|apply (rb_part _ _ _ 10); [cbn; tauto|cbn; lia]]|]. exact Logic.I.
Qed.
Lemma rb_idx : forall o1 o2, In o1 [rb_o] -> In o2 [rb_o] -> obj_idx o1 = obj_idx o2 -> o1 = o2.
Proof. intros o1 o2 [<-|[]] [<-|[]] _. reflexivity. Qed.
(** x30 is defined as "the objective is below 5" *)
Example rb_reif : exists p', certify_assump_reification rb_o (rb_e 14 15 16) 5 (mkLit 30 false) [neg 3; neg 14; neg 15; neg 16] (start (rb_k 14 15 16)) = Some (8%nat, p') /\
  steps_valid (rb_k 14 15 16) (ps_log p') /\ map fst (ps_reg p') = [[neg 30; neg 3]; [neg 30; neg 14]; [neg 30; neg 15]; [neg 30; neg 16]] /\
  forall x, proof_holds x (kof (rb_k 14 15 16) p') -> (x (PVs 30) = true <-> (icost rb_o (on_solver x) < 5)%nat).
Proof.
  destruct (C66_reified_bound_buffered (rb_k 14 15 16) [rb_o] (start (rb_k 14 15 16)) rb_o (rb_e 14 15 16) 5 30 [neg 3; neg 14; neg 15; neg 16])
    as (id & p' & E & V & _ & _ & _ & _ & _ & _ & Y).
  - reflexivity.
  - apply rb_wok.
  - reflexivity.
  - intros o l w [<-|[]] [H|[H|[H|[H|[]]]]]; injection H as <- _; discriminate.
  - intros e He. cbn in He. decompose [or] He; subst; cbn; intuition discriminate.
  - intros c id [].
  - exact rb_idx.
  - left. reflexivity.
  - intros i v l d1 d2 H. discriminate.
  - exists (pos 14), None, (Some 1%nat). split; [reflexivity|]. left. split; [cbn; lia|]. split; [exists 20%nat; split; [cbn; tauto|lia]|].
    destruct (rb_chain 14 15 16) as ((i1 & d1 & A1 & B1) & (i2 & d2 & A2 & B2) & (i3 & d3 & A3 & B3) & _).
    exists (pos 14), i1, (Some d1). split; [exact A1|]. right. split; [cbn; lia|]. split; [reflexivity|]. split; [exists d1; split; [reflexivity|exact B1]|].
    exists (pos 15), i2, (Some d2). split; [exact A2|]. right. split; [cbn; lia|]. split; [reflexivity|]. split; [exists d2; split; [reflexivity|exact B2]|].
    exists (pos 16), i3, (Some d3). split; [exact A3|]. right. split; [cbn; lia|]. split; [reflexivity|]. split; [exists d3; split; [reflexivity|exact B3]|].
    exact Logic.I.
  - assert (Q : certify_assump_reification rb_o (rb_e 14 15 16) 5 (mkLit 30 false) [neg 3; neg 14; neg 15; neg 16] (start (rb_k 14 15 16)) = Some (8%nat, p') /\
       map fst (ps_reg p') = [[neg 30; neg 3]; [neg 30; neg 14]; [neg 30; neg 15]; [neg 30; neg 16]]).
    { vm_compute in E. injection E as <- <-. split; [vm_compute; reflexivity|reflexivity]. }
    exists p'. destruct Q as (Q1 & Q2). split; [exact Q1|]. split; [exact V|]. split; [exact Q2|exact Y].
Qed.
(** the core certifies the bound 5 *)
Example rb_linsu : exists id p', linsu_certify (rb_e 14 15 16) 3 rb_o [] 5 [pos 3; pos 14; pos 16] 4 (start (rb_k 14 15 16)) = Some (id, p') /\
  steps_valid (rb_k 14 15 16) (ps_log p') /\ forall a, proof_holds a (kof (rb_k 14 15 16) p') -> (5 <= icost rb_o (on_solver a))%nat.
Proof.
  destruct (C67_lower_bound_buffered (rb_k 14 15 16) [rb_o] (start (rb_k 14 15 16)) (rb_e 14 15 16) 3 rb_o [] [] [pos 3] (pos 14) (None, Some 1%nat)
     [pos 14; pos 15; pos 16] [pos 14; pos 16] 5 4) as (id & p' & E & V & _ & _ & _ & _ & _ & _ & Y).
  - reflexivity.
  - apply rb_wok.
  - reflexivity.
  - exact rb_idx.
  - left. reflexivity.
  - intros i v l d1 d2 H. discriminate.
  - reflexivity.
  - intros h [<-|[]]. split; [exists 20%nat; split; [cbn; tauto|lia]|cbn; lia].
  - apply rb_chain.
  - repeat constructor.
  - cbn. lia.
  - constructor.
  - constructor.
  - repeat constructor.
  - discriminate.
  - intros b [].
  - apply says_clause. vm_compute. tauto.
  - exists id, p'. split; [exact E|]. split; [exact V|]. intros a Ha. apply (Y a Ha). intros b [].
Qed.

(** The encodings allocate outputs when they are first needed, and linear search asks for smaller and smaller bounds. If the output
    for 10 has a smaller variable than the one for 7, it is taken for an input and the line written for it is not accepted. All other
    hypotheses of the theorem above hold. *)
Theorem C67_output_order_refuted : exists k0 p e o outs os id p',
  pe_buf_empty e = false /\ wok k0 p /\ k_order (kof k0 p) = map obj_order [o] /\ bounds_ok k0 [o] p /\
  (exists ol s, pe_details e 5 = Some (ol, s) /\ heavy o 5 (pos 3) /\ (3 < lvar ol)%nat) /\
  part_chain (kof k0 p) e o 5 5 outs /\ NoDup (map lvar outs) /\ subl os outs /\
  says (kof k0 p) 4 (map axiom (pos 3 :: os)) /\
  linsu_certify e (length outs) o [] 5 (pos 3 :: os) 4 p = Some (id, p') /\
  ~ steps_valid k0 (ps_log p').
Proof.
  exists (rb_k 14 16 13), (start (rb_k 14 16 13)), (rb_e 14 16 13), rb_o, [pos 14; pos 16; pos 13], [pos 14; pos 13].
  destruct (linsu_certify (rb_e 14 16 13) 3 rb_o [] 5 [pos 3; pos 14; pos 13] 4 (start (rb_k 14 16 13))) as [[id p']|] eqn:E.
  2: { vm_compute in E. discriminate. }
  exists id, p'. split; [reflexivity|]. split; [apply rb_wok|]. split; [reflexivity|].
  split; [intros i v l d1 d2 H; discriminate|]. split; [exists (pos 14), (None, Some 1%nat); split; [reflexivity|]; split; [exists 20%nat; split; [cbn; tauto|lia]|cbn; lia]|].
  split; [apply rb_chain|]. split; [repeat constructor; cbn; intuition discriminate|]. split; [repeat constructor|].
  split; [apply says_clause; vm_compute; tauto|]. split; [exact E|].
  assert (L : ps_log p' = firstn 6 (ps_log p') ++ SRup (lb_clause [axiom (neg 13); mkAx (PVp 0) false]) [CAbs 5] :: skipn 7 (ps_log p') /\
              opt_all (map (id_get (k_all (steps_next (rb_k 14 16 13) (firstn 6 (ps_log p')))) (k_next (steps_next (rb_k 14 16 13) (firstn 6 (ps_log p'))))) [CAbs 5])
                = Some [bound_def_1 rb_o 5 (PVp 0)]).
  { vm_compute in E. injection E as _ <-. split; vm_compute; reflexivity. }
  destruct L as (L & H). rewrite L. intros X. apply steps_valid_app in X. destruct X as (_ & (cs & X1 & X2) & _).
  rewrite H in X1. injection X1 as <-.
  pose proof (rup_sound _ _ X2 (fun v => match v with PVs 13 => true | _ => false end)) as Y.
  assert (Z : lb_holds (fun v => match v with PVs 13 => true | _ => false end) (lb_clause [axiom (neg 13); mkAx (PVp 0) false])).
  { apply Y. intros d [<-|[]]. apply bound_def_1_holds. vm_compute. lia. }
  apply lb_clause_holds in Z. destruct Z as (l & [<-|[<-|[]]] & T); discriminate.
Qed.
Print Assumptions C67_output_order_refuted.
