(** * Concrete certified encoders

    Not models of rustsat's encoder: small implementations that show that the assumptions on it can be met ([cert_brute]), and
    that an encoder can be valid without being strict ([cert_loose]). *)
From Coq Require Import List Arith ZArith Lia Bool.
From Verif Require Import Spec ApiSpec Base BaseLemmas MTypes MKernel MPrepro PreSpec PreInst VeriPB VeriThm MProofs ProofThm ProofRun ProofCut ProofFin ReformSpec MProofAlg ReifSpec ReifThm ReifRun BlockSpec BlockThm RunSpec RunThm MProofPre PreProofSpec PreProofThm.
Import ListNotations.
Local Open Scope nat_scope.

(** ** All falsifying patterns are excluded by propagation *)
(** which of the constraints of the proof a value violates *)
Definition brute_hint (c : pb_constr) (id v : nat) : nat :=
  match pb_kind c with
  | PbLb | PbUb => id
  | PbEq => if (Z.of_nat v <? pb_bound c)%Z then id else S id
  end.
Fixpoint brute_lines (f : nat -> nat) (ps : list (nat * clause)) (p : pst) : list (clause * nat) * pst :=
  match ps with
  | [] => ([], p)
  | (v, cl) :: r =>
      let '(i, p1) := wr_id (SRup (clause_pb cl) (map CAbs [f v])) p in
      let '(cls, p2) := brute_lines f r p1 in
      ((cl, i) :: cls, p2)
  end.
Definition brute_ps (c : pb_constr) : list (nat * clause) := filter (fun p => negb (pb_ok_val c (fst p))) (patterns (pb_lits c)).
Definition cert_brute : cert_encoder := fun c id n p =>
  let '(cls, p') := brute_lines (brute_hint c id) (brute_ps c) p in Some (cls, n, p').

Lemma brute_fst : forall f ps p, map fst (fst (brute_lines f ps p)) = map snd ps.
Proof.
  intros f. induction ps as [|[v cl] ps IH]; intros p; [reflexivity|]. cbn [brute_lines wr_id]. specialize (IH (snd (wr_id (SRup (clause_pb cl) (map CAbs [f v])) p))).
  cbn [wr_id snd] in IH. destruct (brute_lines f ps _) as [cls p2]. cbn [fst map snd] in *. rewrite IH. reflexivity.
Qed.
Theorem cert_brute_same : cert_same pb_brute cert_brute.
Proof.
  intros c id n p. unfold cert_brute, pb_brute. pose proof (brute_fst (brute_hint c id) (brute_ps c) p) as E. destruct (brute_lines _ _ _) as [cls p']. cbn [option_map fst snd] in *. rewrite E. reflexivity.
Qed.
Lemma asg_clause : forall (a : pv -> bool) (cl : clause), (forall l, In l (map axiom cl) -> ax_true a l = false) -> clause_true (on_solver a) cl = false.
Proof.
  intros a cl H. destruct (clause_true (on_solver a) cl) eqn:E; [|reflexivity]. apply clause_true_iff in E. destruct E as (l & Hl & Ht).
  specialize (H (axiom l) (in_map axiom cl l Hl)). rewrite axiom_true in H. congruence.
Qed.
Lemma brute_line : forall c id v cl, In (v, cl) (brute_ps c) ->
  exists j C, brute_hint c id v = id + j /\ nth_error (pb_lbs c) j = Some C /\ rup [C] (clause_pb cl).
Proof.
  intros [k ls b] id v cl H. unfold brute_ps in H. apply filter_In in H. cbn [fst pb_lits] in H. destruct H as (H & Hv). apply negb_true_iff in Hv.
  assert (R : forall C : pconstr, (forall a, wsum (on_solver a) ls = v -> ~ lb_holds a C) -> rup [C] (clause_pb cl)).
  { intros C HC. apply (rup_two [C] (map axiom cl) []); [intros m []|]. exists C. split; [left; reflexivity|]. intros a Ha _. apply HC. symmetry.
    exact (patterns_block (on_solver a) ls (v, cl) H (asg_clause a cl Ha)). }
  assert (G : forall (a : pv -> bool) k, lb_holds a (pb_ge (mkPb k ls b)) <-> (b <= Z.of_nat (wsum (on_solver a) ls))%Z).
  { intros a k'. unfold lb_holds, pb_ge. cbn [lb_terms lb_bound pb_lits pb_bound]. rewrite pb_sum. reflexivity. }
  assert (L : forall (a : pv -> bool) k, lb_holds a (pb_le (mkPb k ls b)) <-> (Z.of_nat (wsum (on_solver a) ls) <= b)%Z).
  { intros a k'. unfold lb_holds, pb_le. cbn [lb_terms lb_bound pb_lits pb_bound]. rewrite pb_sum_neg. lia. }
  unfold brute_hint, pb_lbs, pb_ok_val in *. cbn [pb_kind pb_bound] in *. destruct k.
  - apply Z.leb_gt in Hv. exists 0, (pb_le (mkPb PbUb ls b)). split; [lia|]. split; [reflexivity|]. apply R. intros a Ea X. apply L in X. lia.
  - apply Z.leb_gt in Hv. exists 0, (pb_ge (mkPb PbLb ls b)). split; [lia|]. split; [reflexivity|]. apply R. intros a Ea X. apply G in X. lia.
  - apply Z.eqb_neq in Hv. destruct (Z.ltb_spec (Z.of_nat v) b) as [Hl|Hl].
    + exists 0, (pb_ge (mkPb PbEq ls b)). split; [lia|]. split; [reflexivity|]. apply R. intros a Ea X. apply G in X. lia.
    + exists 1, (pb_le (mkPb PbEq ls b)). split; [lia|]. split; [reflexivity|]. apply R. intros a Ea X. apply L in X. lia.
Qed.
Lemma clause_no_p : forall (cl : clause) n, ~ In (PVp n) (cvars (clause_pb cl)).
Proof.
  intros cl n H. unfold clause_pb in H. apply lb_clause_vars in H. rewrite map_map in H. apply in_map_iff in H. destruct H as (l & E & _). discriminate.
Qed.
Lemma brute_lines_ok : forall k0 c id n p0 f ps p, (forall x, In x ps -> In x (brute_ps c)) -> f = brute_hint c id ->
  (forall v, In v (pb_vars c) -> v < n) -> (forall j C, nth_error (pb_lbs c) j = Some C -> In (id + j, C) (k_all (kof k0 p))) ->
  frame k0 p0 p -> ps_next p0 <= ps_next p -> ps_reg p = ps_reg p0 -> new_from k0 p n -> (exists ls, ps_log p = ps_log p0 ++ ls) ->
  let r := brute_lines f ps p in
  frame k0 p0 (snd r) /\ ps_reg (snd r) = ps_reg p0 /\ new_from k0 (snd r) n /\ (exists ls, ps_log (snd r) = ps_log p0 ++ ls) /\
  (forall e, In e (k_all (kof k0 p)) -> In e (k_all (kof k0 (snd r)))) /\
  forall cl i, In (cl, i) (fst r) -> ps_next p0 <= i /\ In (i, clause_pb cl) (k_all (kof k0 (snd r))).
Proof.
  intros k0 c id n p0 f ps. induction ps as [|[v cl] ps IH]; intros p Hps Ef Hv Hc F Hn Hr Hnew Hlog r.
  - subst r. cbn [brute_lines fst snd]. repeat (split; [assumption|]). split; [intros e He; exact He|]. intros cl i [].
  - assert (Hin : In (v, cl) (brute_ps c)) by (apply Hps; left; reflexivity).
    destruct (brute_line c id v cl Hin) as (j & C & Ej & HC & Hrup).
    destruct (frame_rup k0 p0 p (clause_pb cl) [f v] [C] F) as (F1 & I1 & K1).
    { constructor; [|constructor]. rewrite Ef, Ej. exact (Hc j C HC). }
    { exact Hrup. }
    { intros m Hm. destruct (clause_no_p _ _ Hm). }
    set (p1 := snd (wr_id (SRup (clause_pb cl) (map CAbs [f v])) p)) in *.
    destruct (IH p1) as (G1 & G2 & G3 & G4 & G5 & G6).
    + intros x Hx. apply Hps. right. exact Hx.
    + exact Ef.
    + exact Hv.
    + intros j' C' HC'. apply K1. exact (Hc j' C' HC').
    + exact F1.
    + unfold p1, wr_id. cbn [snd ps_next]. lia.
    + exact Hr.
    + intros x Hx. destruct (Hnew x Hx) as (N1 & N2). split; [exact N1|]. unfold p1, wr_id. cbn [snd ps_log]. rewrite flat_map_app. intros X. apply in_app_or in X. destruct X as [X|X]; [exact (N2 X)|].
      cbn [flat_map step_vars] in X. rewrite app_nil_r in X. apply clause_pb_vars in X. assert (x < n); [|lia]. apply Hv. unfold brute_ps in Hin. apply filter_In in Hin.
      exact (patterns_vars (pb_lits c) (v, cl) (proj1 Hin) x X).
    + destruct Hlog as (ls & El). exists (ls ++ [SRup (clause_pb cl) (map CAbs [f v])]). unfold p1, wr_id. cbn [snd ps_log]. rewrite El, app_assoc. reflexivity.
    + assert (Er : r = ((cl, ps_next p) :: fst (brute_lines f ps p1), snd (brute_lines f ps p1))).
      { subst r. cbn [brute_lines wr_id]. change (mkPst (S (ps_next p)) (ps_nextvar p) (ps_log p ++ [SRup (clause_pb cl) (map CAbs [f v])]) (ps_vmap p) (ps_bounds p) (ps_reg p)) with p1.
        destruct (brute_lines f ps p1) as [cls p2]. reflexivity. }
      rewrite Er. cbn [fst snd]. repeat (split; [assumption|]). split; [intros e He; apply G5, K1; exact He|].
      intros cl' i' [X|X].
      * injection X as <- <-. split; [exact Hn|]. apply G5. exact I1.
      * exact (G6 cl' i' X).
Qed.
Theorem cert_brute_ok : cert_enc_ok cert_brute.
Proof.
  intros k0 c id n p cls n' p' E (W & N & R & O & V & I). unfold cert_brute in E.
  pose proof (brute_lines_ok k0 c id n p (brute_hint c id) (brute_ps c) p (fun x Hx => Hx) eq_refl V I (frame_refl k0 p W) (le_n _) eq_refl N) as (F & Hr & Hn & Hl & Hk & Hc).
  { exists []. rewrite app_nil_r. reflexivity. }
  destruct (brute_lines _ _ _) as [cls0 q]. cbn [fst snd] in *. injection E as <- <- <-. split.
  - constructor.
    + exact (fr_wok _ _ _ F).
    + exact Hn.
    + exact (conj (fr_vmap _ _ _ F) (conj (fr_bounds _ _ _ F) Hr)).
    + exact (fr_excl _ _ _ F).
    + intros e He _. exact (Hk e He).
    + intros cl i Hi. destruct (Hc cl i Hi) as (H1 & H2). split; [right; exact H1|]. exists (clause_pb cl). split; [exact H2|split; reflexivity].
    + exact Hl.
  - intros a Ha _. exact (fr_sound _ _ _ F a Ha).
Qed.

(** ** An encoder that is not strict *)
(** A new variable is defined in the proof as the first literal of the constraint, by two lines. The solver gets only the clause that
    the literal implies the variable, as for the outputs of a totalizer that is encoded in one direction. *)
Definition pb_loose : pb_encoder := fun c n =>
  match pb_lits c with
  | [] => pb_brute c n
  | (l, _) :: _ => Some (map snd (brute_ps c) ++ [[pos n; lnot l]], S n)
  end.
Definition loose_lines (l : lit) (n : nat) (p : pst) : pst :=
  snd (wr_id (SRed (clause_pb [pos n; lnot l]) [(PVs n, true)] []) (snd (wr_id (SRed (clause_pb [neg n; l]) [(PVs n, false)] []) p))).
Definition cert_loose : cert_encoder := fun c id n p =>
  match pb_lits c with
  | [] => cert_brute c id n p
  | (l, _) :: _ =>
      let '(cls, p1) := brute_lines (brute_hint c id) (brute_ps c) p in
      Some (cls ++ [([pos n; lnot l], S (ps_next p1))], S n, loose_lines l n p1)
  end.
Theorem cert_loose_same : cert_same pb_loose cert_loose.
Proof.
  intros c id n p. unfold cert_loose, pb_loose. destruct (pb_lits c) as [|[l w] r] eqn:El; [exact (cert_brute_same c id n p)|].
  pose proof (brute_fst (brute_hint c id) (brute_ps c) p) as E. destruct (brute_lines _ _ _) as [cls p']. cbn [option_map fst snd] in *. rewrite map_app, E. reflexivity.
Qed.
Theorem pb_loose_ok : pb_enc_ok pb_loose.
Proof.
  intros c n cls n' E V. unfold pb_loose in E. destruct (pb_lits c) as [|[l w] r] eqn:El; [exact (pb_brute_ok c n cls n' E V)|]. injection E as <- <-.
  destruct (pb_brute_ok c n _ n eq_refl V) as (_ & H1 & H2 & H3). change (map snd (filter (fun p => negb (pb_ok_val c (fst p))) (patterns (pb_lits c)))) with (map snd (brute_ps c)) in H1, H2, H3.
  assert (Hl : lvar l < n) by (apply V; unfold pb_vars; rewrite El; left; reflexivity).
  split; [lia|]. split; [|split].
  - intros v Hv. rewrite cls_vars_app in Hv. apply in_app_or in Hv. destruct Hv as [Hv|Hv]; [apply H1 in Hv; lia|]. apply in_cls_vars in Hv. destruct Hv as (cl & [<-|[]] & [<-|[<-|[]]]); [cbn; lia|rewrite lvar_lnot; lia].
  - intros a Hs. apply sat_app in Hs. exact (H2 a (proj1 Hs)).
  - intros a Ha. destruct (H3 a Ha) as (b & Hb & Hs). exists (upd b n true). split; [intros v Hv; rewrite upd_neq by lia; exact (Hb v Hv)|]. apply sat_app. split.
    + apply (sat_ext _ (n - 1) b); [| |exact Hs].
      * intros cl x Hcl Hx. assert (lvar x < n); [|lia]. apply H1. apply in_cls_vars. exists cl. split; [exact Hcl|]. apply in_lits_vars. exists x. split; [exact Hx|reflexivity].
      * intros v Hv. symmetry. apply upd_neq. lia.
    + intros cl [<-|[]]. apply clause_true_iff. exists (pos n). split; [left; reflexivity|]. rewrite lit_true_pos. apply upd_eq.
Qed.
Theorem cert_loose_valid : cert_enc_valid cert_loose.
Proof.
  intros k0 c id n p cls n' p' E Pre. unfold cert_loose in E. destruct (pb_lits c) as [|[l w] r] eqn:El; [exact (proj1 (cert_brute_ok k0 c id n p cls n' p' E Pre))|].
  destruct Pre as (W & N & R & O & V & I).
  pose proof (brute_lines_ok k0 c id n p (brute_hint c id) (brute_ps c) p (fun x Hx => Hx) eq_refl V I (frame_refl k0 p W) (le_n _) eq_refl N) as (F & Hr & Hn & Hl & Hk & Hc).
  { exists []. rewrite app_nil_r. reflexivity. }
  destruct (brute_lines _ _ _) as [cls0 q]. cbn [fst snd] in *. injection E as <- <- <-.
  assert (Hv : lvar l < n) by (apply V; unfold pb_vars; rewrite El; left; reflexivity).
  destruct (red_pair k0 q n (axiom l) (map axiom [neg n; l]) (map axiom [pos n; lnot l])) as (W2 & K2 & _).
  - exact (fr_wok _ _ _ F).
  - rewrite (fr_order _ _ _ F). exact R.
  - rewrite (fr_order _ _ _ F). exact (O n (le_n _)).
  - exact (new_unused k0 q n n Hn (le_n _)).
  - cbn [axiom ax_var]. intros X. injection X as X. lia.
  - intros m X. discriminate X.
  - intros x. cbn [map In axiom neg lvar lneg]. intuition.
  - intros x. cbn [map In]. assert (Ea : axiom (lnot l) = ax_not (axiom l)) by reflexivity. rewrite Ea. change (axiom (pos n)) with (mkAx (PVs n) false). intuition.
  - change (lb_clause (map axiom [neg n; l])) with (clause_pb [neg n; l]) in W2, K2. change (lb_clause (map axiom [pos n; lnot l])) with (clause_pb [pos n; lnot l]) in W2, K2.
    fold (loose_lines l n q) in W2, K2.
    assert (Hall : forall e, In e (k_all (kof k0 q)) -> In e (k_all (kof k0 (loose_lines l n q)))) by (intros e He; rewrite K2; apply in_add_der; right; apply in_add_der; right; exact He).
    constructor.
    + exact W2.
    + intros x Hx. destruct (Hn x ltac:(lia)) as (N1 & N2). split; [exact N1|]. unfold loose_lines, wr_id. cbn [snd ps_log]. rewrite !flat_map_app. intros X. apply in_app_or in X. destruct X as [X|X].
      * apply in_app_or in X. destruct X as [X|X]; [exact (N2 X)|]. cbn [flat_map step_vars] in X. rewrite app_nil_r in X. apply clause_pb_vars in X. destruct X as [X|[X|[]]]; [cbn in X; lia|lia].
      * cbn [flat_map step_vars] in X. rewrite app_nil_r in X. apply clause_pb_vars in X. destruct X as [X|[X|[]]]; [cbn in X; lia|rewrite lvar_lnot in X; lia].
    + exact (conj (fr_vmap _ _ _ F) (conj (fr_bounds _ _ _ F) Hr)).
    + rewrite K2. exact (fr_excl _ _ _ F).
    + intros e He _. exact (Hall e (Hk e He)).
    + intros cl i Hi. apply in_app_or in Hi. destruct Hi as [Hi|[Hi|[]]].
      * destruct (Hc cl i Hi) as (H1 & H2). split; [right; exact H1|]. exists (clause_pb cl). split; [exact (Hall _ H2)|split; reflexivity].
      * injection Hi as <- <-. split; [right; pose proof (fr_next _ _ _ F); lia|]. exists (clause_pb [pos n; lnot l]). split; [|split; reflexivity].
        rewrite K2. apply in_add_der. left. f_equal. cbn [add_der k_next]. rewrite (wk_next _ _ (fr_wok _ _ _ F)). reflexivity.
    + destruct Hl as (ls & El'). eexists. unfold loose_lines, wr_id. cbn [snd ps_log]. rewrite El', <- !app_assoc. reflexivity.
Qed.
