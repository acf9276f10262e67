(** * Derivations of learned clauses and the alignment of clause ids *)
From Coq Require Import List Arith ZArith Lia Bool.
From Verif Require Import Base BaseLemmas MTypes MPMinimal MPrepro VeriPB VeriThm MProofs MTracer ProofThm ProofRun.
Import ListNotations.
Local Open Scope Z_scope.

(** ** Constraints that are clauses *)
Definition ax_eqd : forall x y : ax pv, {x = y} + {x <> y}.
Proof. decide equality; [apply bool_dec|apply pv_eqd]. Defined.
Definition nontaut (ls : list (ax pv)) : Prop := forall l, In l ls -> ~ In (ax_not l) ls.
(** net coefficient of a variable in a clause *)
Definition cl_coef (ls : list (ax pv)) (v : pv) : Z :=
  if in_dec ax_eqd (mkAx v false) ls then 1 else if in_dec ax_eqd (mkAx v true) ls then -1 else 0.
(** the normal form of the constraint is the clause *)
Definition clausal (C : pconstr) (ls : list (ax pv)) : Prop :=
  (forall v, lb_coef pv_eqd C v = cl_coef ls v) /\ lb_degree pv_eqd C = 1.

Lemma cl_coef_in : forall ls l, nontaut ls -> In l ls -> cl_coef ls (ax_var l) = if ax_neg l then -1 else 1.
Proof.
  intros ls [v n] Hn Hl. cbn [ax_var ax_neg]. unfold cl_coef. destruct n.
  - destruct (in_dec ax_eqd (mkAx v false) ls) as [X|X].
    + exfalso. apply (Hn _ X). exact Hl.
    + destruct (in_dec ax_eqd (mkAx v true) ls) as [Y|Y]; [reflexivity|contradiction].
  - destruct (in_dec ax_eqd (mkAx v false) ls) as [X|X]; [reflexivity|contradiction].
Qed.
Lemma cl_coef_pos : forall ls v, nontaut ls -> (cl_coef ls v = 1 <-> In (mkAx v false) ls).
Proof.
  intros ls v Hn. unfold cl_coef. destruct (in_dec ax_eqd (mkAx v false) ls) as [X|X]; [tauto|].
  destruct (in_dec ax_eqd (mkAx v true) ls); split; intros; try lia; contradiction.
Qed.
Lemma cl_coef_neg : forall ls v, nontaut ls -> (cl_coef ls v = -1 <-> In (mkAx v true) ls).
Proof.
  intros ls v Hn. unfold cl_coef. destruct (in_dec ax_eqd (mkAx v false) ls) as [X|X].
  - split; [lia|]. intros Y. exfalso. exact (Hn _ X Y).
  - destruct (in_dec ax_eqd (mkAx v true) ls); split; intros; try lia; try tauto.
Qed.
Lemma cl_coef_ext : forall l1 l2, (forall x, In x l1 <-> In x l2) -> forall v, cl_coef l1 v = cl_coef l2 v.
Proof.
  intros l1 l2 H v. unfold cl_coef.
  destruct (in_dec ax_eqd (mkAx v false) l1) as [A|A], (in_dec ax_eqd (mkAx v false) l2) as [B|B]; try reflexivity;
    try (exfalso; apply H in A; contradiction); try (exfalso; apply H in B; contradiction).
  destruct (in_dec ax_eqd (mkAx v true) l1) as [C|C], (in_dec ax_eqd (mkAx v true) l2) as [D|D]; try reflexivity;
    exfalso; [apply H in C|apply H in D]; contradiction.
Qed.
Lemma cl_coef_range : forall ls v, cl_coef ls v = 1 \/ cl_coef ls v = -1 \/ cl_coef ls v = 0.
Proof. intros ls v. unfold cl_coef. destruct (in_dec _ _ _); [tauto|]. destruct (in_dec _ _ _); tauto. Qed.
Lemma clausal_ext : forall C l1 l2, (forall x, In x l1 <-> In x l2) -> clausal C l1 -> clausal C l2.
Proof. intros C l1 l2 H [H1 H2]. split; [|exact H2]. intros v. rewrite H1. apply cl_coef_ext. exact H. Qed.

(** a clause without repeated literals *)
Lemma clausal_clause : forall ls, NoDup ls -> nontaut ls -> clausal (lb_clause ls) ls.
Proof.
  intros ls Hd Hn.
  assert (Hc : forall v, lb_coef pv_eqd (lb_clause ls) v = cl_coef ls v).
  { intros v. unfold lb_coef, lb_clause. cbn [lb_terms]. revert Hd Hn. induction ls as [|l ls IH]; intros Hd Hn.
    - reflexivity.
    - inversion Hd as [|x xs Hx Hd']; subst.
      assert (Hn' : nontaut ls) by (intros x Hi Hj; apply (Hn x); right; assumption).
      cbn [map t_coef]. rewrite (IH Hd' Hn').
      destruct (pv_eqd (ax_var l) v) as [E|E].
      + assert (Z0 : cl_coef ls v = 0).
        { unfold cl_coef. destruct (in_dec ax_eqd (mkAx v false) ls) as [A|A].
          - exfalso. destruct l as [x n]. cbn in E. subst x. destruct n.
            + apply (Hn (mkAx v true)); [left; reflexivity|right; exact A].
            + exact (Hx A).
          - destruct (in_dec ax_eqd (mkAx v true) ls) as [B|B]; [|reflexivity].
            exfalso. destruct l as [x n]. cbn in E. subst x. destruct n; [exact (Hx B)|].
            apply (Hn (mkAx v false)); [left; reflexivity|right; exact B]. }
        rewrite Z0. rewrite <- E. rewrite (cl_coef_in (l :: ls) l Hn (or_introl eq_refl)). destruct (ax_neg l); reflexivity.
      + unfold cl_coef.
        assert (G : forall b, In (mkAx v b) (l :: ls) <-> In (mkAx v b) ls).
        { intros b. split; [|intros; right; assumption]. intros [X|X]; [|exact X]. exfalso. subst l. apply E. reflexivity. }
        destruct (in_dec ax_eqd (mkAx v false) ls) as [A|A], (in_dec ax_eqd (mkAx v false) (l :: ls)) as [B|B]; try reflexivity;
          try (exfalso; apply G in B; contradiction); try (exfalso; apply B; right; exact A).
        destruct (in_dec ax_eqd (mkAx v true) ls) as [C|C], (in_dec ax_eqd (mkAx v true) (l :: ls)) as [D|D]; try reflexivity;
          exfalso; [apply D; right; exact C|apply G in D; contradiction]. }
  split; [exact Hc|].
  rewrite (lb_degree_any pv_eqd (lb_clause ls) (lb_vars pv_eqd (lb_clause ls)) (lb_vars_nodup pv_eqd _) (incl_refl _)).
  unfold lb_rhs.
  assert (G : vsum (lb_vars pv_eqd (lb_clause ls)) (fun v => Z.max 0 (- lb_coef pv_eqd (lb_clause ls) v)) = t_const (lb_terms (lb_clause ls))).
  { clear Hc. unfold lb_clause. revert Hd Hn. unfold lb_coef, lb_vars. cbn [lb_terms].
    induction ls as [|l ls IH]; intros Hd Hn; [reflexivity|].
    inversion Hd as [|x xs Hx Hd']; subst.
    assert (Hn' : nontaut ls) by (intros x Hi Hj; apply (Hn x); right; assumption).
    specialize (IH Hd' Hn').
    assert (Hv : ~ In (ax_var l) (map (fun t : Z * ax pv => ax_var (snd t)) (map (fun l0 => (1, l0)) ls))).
    { rewrite map_map. cbn [snd]. intros Hi. apply in_map_iff in Hi. destruct Hi as (y & Ey & Hy).
      destruct (ax_eqd y l) as [->|Ne]; [contradiction|]. apply (Hn l); [left; reflexivity|]. right.
      replace (ax_not l) with y; [exact Hy|]. destruct y as [yv yn], l as [lv ln]. cbn in Ey. subst yv. unfold ax_not. cbn.
      destruct yn, ln; try reflexivity; exfalso; apply Ne; reflexivity. }
    cbn [map t_const snd]. cbn [nodup]. destruct (in_dec pv_eqd (ax_var l) _) as [X|_]; [contradiction|].
    cbn [vsum]. cbn [t_coef]. destruct (pv_eqd (ax_var l) (ax_var l)) as [_|N]; [|exfalso; apply N; reflexivity].
    rewrite (t_coef_out pv_eqd _ _ Hv). rewrite <- IH.
    rewrite (vsum_ext (nodup pv_eqd (map (fun t : Z * ax pv => ax_var (snd t)) (map (fun l0 => (1, l0)) ls)))
       _ (fun v => Z.max 0 (- t_coef pv_eqd (map (fun l0 => (1, l0)) ls) v))).
    - destruct (ax_neg l); lia.
    - intros v Hi. destruct (pv_eqd (ax_var l) v) as [<-|_]; [exfalso; apply nodup_In in Hi; contradiction|]. f_equal. }
  rewrite G. cbn [lb_clause lb_bound]. lia.
Qed.

(** the constraint of a clause is satisfied exactly by the assignments satisfying the clause *)
Lemma clausal_same : forall C D ls, clausal C ls -> clausal D ls -> lb_same pv_eqd C D.
Proof.
  intros C D ls [C1 C2] [D1 D2]. assert (E : forall v, lb_coef pv_eqd C v = lb_coef pv_eqd D v) by (intros v; rewrite C1, D1; reflexivity).
  split; [exact E|]. destruct (nodup_both pv_eqd C D) as (vs & Hn & Hc & Hd).
  rewrite (lb_degree_any pv_eqd C vs Hn Hc) in C2. rewrite (lb_degree_any pv_eqd D vs Hn Hd) in D2.
  rewrite (vsum_ext vs (fun v => Z.max 0 (- lb_coef pv_eqd C v)) (fun v => Z.max 0 (- lb_coef pv_eqd D v))) in C2; [lia|].
  intros v _. rewrite E. reflexivity.
Qed.
Lemma clausal_holds : forall (a : pv -> bool) C ls, nontaut ls -> clausal C ls ->
  (lb_holds a C <-> exists l, In l ls /\ ax_true a l = true).
Proof.
  intros a C ls Hn HC. set (ns := nodup ax_eqd ls).
  assert (Hi : forall x, In x ls <-> In x ns) by (intros x; symmetry; apply nodup_In).
  assert (Hnt : nontaut ns) by (intros l X Y; apply Hi in X; apply Hi in Y; exact (Hn l X Y)).
  assert (S : clausal (lb_clause ns) ns) by (apply clausal_clause; [apply NoDup_nodup|exact Hnt]).
  rewrite (lb_same_holds pv_eqd C (lb_clause ns) (clausal_same C _ ns (clausal_ext C ls ns Hi HC) S) a).
  rewrite lb_clause_holds. split; intros (l & X & Y); exists l; split; try exact Y; apply Hi; exact X.
Qed.

(** ** Addition and saturation is resolution *)
Definition canc (x y : Z) : Z := Z.max 0 (- x) + Z.max 0 (- y) - Z.max 0 (- (x + y)).
Lemma add_degree : forall (c d : pconstr) vs, NoDup vs -> incl (lb_vars pv_eqd c) vs -> incl (lb_vars pv_eqd d) vs ->
  lb_degree pv_eqd (lb_add c d) =
  lb_degree pv_eqd c + lb_degree pv_eqd d - vsum vs (fun v => canc (lb_coef pv_eqd c v) (lb_coef pv_eqd d v)).
Proof.
  intros c d vs Hn Hc Hd. rewrite (lb_degree_any pv_eqd c vs Hn Hc), (lb_degree_any pv_eqd d vs Hn Hd).
  rewrite (lb_degree_any pv_eqd (lb_add c d) vs Hn).
  - rewrite lb_add_rhs.
    rewrite (vsum_ext vs (fun v => Z.max 0 (- lb_coef pv_eqd (lb_add c d) v))
       (fun v => Z.max 0 (- lb_coef pv_eqd c v) + (Z.max 0 (- lb_coef pv_eqd d v) + -1 * canc (lb_coef pv_eqd c v) (lb_coef pv_eqd d v)))).
    + rewrite vsum_add, vsum_add, vsum_mul. lia.
    + intros v _. rewrite lb_add_coef. unfold canc. lia.
  - intros v Hv. apply in_lb_vars in Hv. unfold lb_add in Hv. cbn [lb_terms] in Hv. rewrite map_app, in_app_iff in Hv.
    destruct Hv as [Hv|Hv]; [apply Hc|apply Hd]; apply in_lb_vars; exact Hv.
Qed.

(** one resolution step: the literal [l] of [d] is resolved with its negation in [r] *)
Definition resolves (r d r' : list (ax pv)) : Prop :=
  exists l, In l d /\ In (ax_not l) r /\
    (forall x, In x d -> x <> l -> ~ In (ax_not x) r) /\
    (forall x, In x r' <-> (In x r /\ x <> ax_not l) \/ (In x d /\ x <> l)).
Lemma resolves_nontaut : forall r d r', nontaut r -> nontaut d -> resolves r d r' -> nontaut r'.
Proof.
  intros r d r' Hr Hd (l & Hl & Hnl & Hx & Hi) x X Y. apply Hi in X. apply Hi in Y.
  destruct X as [(X1 & X2)|(X1 & X2)], Y as [(Y1 & Y2)|(Y1 & Y2)].
  - exact (Hr x X1 Y1).
  - apply (Hx (ax_not x) Y1 Y2). rewrite ax_not_not. exact X1.
  - exact (Hx x X1 X2 Y1).
  - exact (Hd x X1 Y1).
Qed.
Lemma ax_not_neq : forall l : ax pv, ax_not l <> l.
Proof. intros [v n] E. injection E as E. destruct n; discriminate. Qed.
Lemma sat_resolve : forall C D r d r', nontaut r -> nontaut d -> clausal C r -> clausal D d -> resolves r d r' ->
  clausal (lb_sat pv_eqd (lb_add C D)) r'.
Proof.
  intros C D r d r' Hr Hd [C1 C2] [D1 D2] Hres.
  pose proof (resolves_nontaut r d r' Hr Hd Hres) as Hr'. destruct Hres as (l & Hl & Hnl & Hx & Hi).
  set (p := ax_var l).
  assert (Ed : cl_coef d p = if ax_neg l then -1 else 1) by (apply cl_coef_in; assumption).
  assert (Er : cl_coef r p = if ax_neg l then 1 else -1).
  { pose proof (cl_coef_in r (ax_not l) Hr Hnl) as X. cbn [ax_not ax_var ax_neg] in X. fold p in X. rewrite X.
    destruct (ax_neg l); reflexivity. }
  (* no other variable has opposite signs *)
  assert (Hsame : forall v, v <> p -> cl_coef r v * cl_coef d v >= 0).
  { intros v Hv. destruct (cl_coef_range r v) as [A|[A|A]], (cl_coef_range d v) as [B|[B|B]]; rewrite A, B; try lia; exfalso.
    - apply (cl_coef_pos r v Hr) in A. apply (cl_coef_neg d v Hd) in B. apply (Hx _ B); [|exact A].
      intros E. apply Hv. unfold p. rewrite <- E. reflexivity.
    - apply (cl_coef_neg r v Hr) in A. apply (cl_coef_pos d v Hd) in B. apply (Hx _ B); [|exact A].
      intros E. apply Hv. unfold p. rewrite <- E. reflexivity. }
  assert (Hdeg : lb_degree pv_eqd (lb_add C D) = 1).
  { destruct (nodup_both pv_eqd C D) as (vs & Hn & HC & HD). rewrite (add_degree C D vs Hn HC HD), C2, D2.
    rewrite (vsum_single vs p); [|exact Hn| |].
    - rewrite C1, D1, Ed, Er. unfold canc. destruct (ax_neg l); reflexivity.
    - apply HC. apply lb_vars_support. rewrite C1, Er. destruct (ax_neg l); discriminate.
    - intros v _ Hv. rewrite C1, D1. specialize (Hsame v Hv). unfold canc.
      destruct (cl_coef_range r v) as [A|[A|A]], (cl_coef_range d v) as [B|[B|B]]; rewrite A, B in *; lia. }
  split; [|rewrite lb_sat_degree; exact Hdeg].
  intros v. rewrite lb_sat_coef, Hdeg, lb_add_coef, C1, D1. unfold sat_coef. change (Z.max 0 1) with 1.
  (* the literals of the resolvent *)
  assert (G : forall b, In (mkAx v b) r' <-> v <> p /\ (In (mkAx v b) r \/ In (mkAx v b) d)).
  { intros b. rewrite Hi. split.
    - intros [(X & N)|(X & N)].
      + split; [|left; exact X]. intros E. subst v. destruct l as [lv ln]. unfold p in *. cbn [ax_var] in *.
        destruct (bool_dec b ln) as [->|Nb].
        * apply (Hr _ X). exact Hnl.
        * apply N. unfold ax_not. cbn. f_equal. destruct b, ln; try reflexivity; exfalso; apply Nb; reflexivity.
      + split; [|right; exact X]. intros E. subst v. destruct l as [lv ln]. unfold p in *. cbn [ax_var] in *.
        destruct (bool_dec b ln) as [->|Nb]; [apply N; reflexivity|]. apply (Hd _ Hl).
        replace (ax_not (mkAx lv ln)) with (mkAx lv b); [exact X|]. unfold ax_not. cbn. f_equal.
        destruct b, ln; try reflexivity; exfalso; apply Nb; reflexivity.
    - intros (N & [X|X]); [left|right]; split; try exact X; intros E; apply N; unfold p; destruct l as [lv ln].
      + injection E as E _. exact E.
      + injection E as E _. exact E. }
  destruct (pv_eqd v p) as [->|Nv].
  - rewrite Ed, Er. assert (Z0 : cl_coef r' p = 0).
    { unfold cl_coef. destruct (in_dec ax_eqd (mkAx p false) r') as [A|_]; [apply G in A; destruct A as (A & _); exfalso; apply A; reflexivity|].
      destruct (in_dec ax_eqd (mkAx p true) r') as [A|_]; [apply G in A; destruct A as (A & _); exfalso; apply A; reflexivity|reflexivity]. }
    rewrite Z0. destruct (ax_neg l); reflexivity.
  - specialize (Hsame v Nv).
    assert (V : cl_coef r' v = if (0 <? cl_coef r v) || (0 <? cl_coef d v) then 1 else if (cl_coef r v <? 0) || (cl_coef d v <? 0) then -1 else 0).
    { pose proof (cl_coef_pos r v Hr) as P1. pose proof (cl_coef_neg r v Hr) as P2.
      pose proof (cl_coef_pos d v Hd) as P3. pose proof (cl_coef_neg d v Hd) as P4.
      pose proof (G false) as G1. pose proof (G true) as G2.
      unfold cl_coef at 1. destruct (in_dec ax_eqd (mkAx v false) r') as [A|A].
      - apply G1 in A. destruct A as (_ & [A|A]); [apply P1 in A|apply P3 in A]; rewrite A; cbn [Z.ltb Z.compare orb]; [reflexivity|].
        rewrite orb_true_r. reflexivity.
      - assert (N1 : cl_coef r v <> 1) by (intros E; apply A; apply G1; split; [exact Nv|left; apply P1; exact E]).
        assert (N2 : cl_coef d v <> 1) by (intros E; apply A; apply G1; split; [exact Nv|right; apply P3; exact E]).
        destruct (in_dec ax_eqd (mkAx v true) r') as [B|B].
        + apply G2 in B. destruct B as (_ & [B|B]); [apply P2 in B|apply P4 in B]; rewrite B;
            destruct (cl_coef_range r v) as [A1|[A1|A1]], (cl_coef_range d v) as [B1|[B1|B1]]; rewrite ?A1, ?B1 in *; try lia; reflexivity.
        + assert (N3 : cl_coef r v <> -1) by (intros E; apply B; apply G2; split; [exact Nv|left; apply P2; exact E]).
          assert (N4 : cl_coef d v <> -1) by (intros E; apply B; apply G2; split; [exact Nv|right; apply P4; exact E]).
          destruct (cl_coef_range r v) as [A1|[A1|A1]], (cl_coef_range d v) as [B1|[B1|B1]]; rewrite ?A1, ?B1 in *; try lia; reflexivity. }
    rewrite V. destruct (cl_coef_range r v) as [A|[A|A]], (cl_coef_range d v) as [B|[B|B]]; rewrite A, B in *; try reflexivity; lia.
Qed.

(** ** Chains of resolution steps *)
Inductive chain : list (ax pv) -> list (list (ax pv)) -> list (ax pv) -> Prop :=
| chain_nil : forall r, chain r [] r
| chain_cons : forall r d r' ds R, resolves r d r' -> chain r' ds R -> chain r (d :: ds) R.
(** the antecedents are listed in the order of propagation, resolution starts at the last one *)
Definition derives (cs : list (list (ax pv))) (c : list (ax pv)) : Prop :=
  match rev cs with
  | [] => False
  | f :: r => exists R, chain f r R /\ forall x, In x R <-> In x c
  end.
Lemma fold_resolve : forall get ids ds e C r R,
  pol_eval pv_eqd get e = Some C -> nontaut r -> clausal C r ->
  Forall2 (fun i d => nontaut d /\ exists D, get (CAbs i) = Some D /\ clausal D d) ids ds ->
  chain r ds R ->
  exists C', pol_eval pv_eqd get (fold_left (fun der i => PSat (PAdd der (PC (CAbs i)))) ids e) = Some C' /\
    nontaut R /\ clausal C' R.
Proof.
  intros get ids ds e C r R E Hn Hc H. revert e C r E Hn Hc. induction H as [|i d ids ds (Hd & D & HD & HDc) H IH]; intros e C r E Hn Hc Hch.
  - inversion Hch; subst. cbn [fold_left]. exists C. tauto.
  - inversion Hch as [|r0 d0 r' ds0 R0 Hs Hch']; subst. cbn [fold_left].
    apply (IH _ (lb_sat pv_eqd (lb_add C D)) r').
    + cbn [pol_eval]. rewrite E, HD. reflexivity.
    + exact (resolves_nontaut r d r' Hn Hd Hs).
    + exact (sat_resolve C D r d r' Hn Hd Hc HDc Hs).
    + exact Hch'.
Qed.
Lemma derivation_ok : forall get ids cs c,
  Forall2 (fun i d => nontaut d /\ exists D, get (CAbs i) = Some D /\ clausal D d) ids cs ->
  derives cs c ->
  exists p C, derivation ids = Some p /\ pol_eval pv_eqd get p = Some C /\ nontaut c /\ clausal C c.
Proof.
  intros get ids cs c H Hd. unfold derives in Hd. unfold derivation.
  assert (Hr : Forall2 (fun i d => nontaut d /\ exists D, get (CAbs i) = Some D /\ clausal D d) (rev ids) (rev cs)).
  { clear Hd. induction H as [|i d ids ds Hi H IH]; [constructor|]. cbn [rev]. apply Forall2_app; [exact IH|]. constructor; [exact Hi|constructor]. }
  destruct (rev cs) as [|f r]; [destruct Hd|]. inversion Hr as [|i d ids' ds' (Hf & D & HD & HDc) Hr']; subst.
  destruct Hd as (R & Hch & Hi). eexists. 
  destruct (fold_resolve get ids' r (PC (CAbs i)) D f R HD Hf HDc Hr' Hch) as (C & EC & HnR & HC).
  exists C. split; [reflexivity|]. split; [exact EC|]. split.
  - intros l X Y. apply Hi in X. apply Hi in Y. exact (HnR l X Y).
  - apply (clausal_ext C R c Hi HC).
Qed.

(** ** Alignment *)
Definition cl_ax (c : clause) : list (ax pv) := map axiom c.
Definition lookup (cls : list (clause * cstat)) (id : nat) : option (clause * cstat) :=
  match id with O => None | S n => nth_error cls n end.
(** clause [id] of the solver is the constraint with the mapped id of the proof *)
Definition mirrors (k : chk) (t : tracer) (id : nat) (c : clause) : Prop :=
  exists vid C, cmap_get (tr_map t) id = Some vid /\ In (vid, C) (k_all k) /\ clausal C (cl_ax c).
Record aligned (k0 : chk) (s : sol_st) : Prop := mkAligned {
  al_len : length (tr_map (so_tr s)) = length (so_cls s);
  al_ids : ids_ok (kof k0 (so_p s));
  al_valid : steps_valid k0 (ps_log (so_p s));
  al_next : k_next (kof k0 (so_p s)) = ps_next (so_p s);
  al_live : forall id c st, lookup (so_cls s) id = Some (c, st) -> st <> Gone ->
    nontaut (cl_ax c) /\ mirrors (kof k0 (so_p s)) (so_tr s) id c;
  (* redundant clauses are derived constraints of their own *)
  al_red : forall id c, lookup (so_cls s) id = Some (c, Red) ->
    forall vid, cmap_get (tr_map (so_tr s)) id = Some vid ->
    (forall C, ~ In (vid, C) (k_core (kof k0 (so_p s)))) /\
    (vid < ps_next (so_p s))%nat /\
    (forall id' c' st', lookup (so_cls s) id' = Some (c', st') -> st' <> Gone ->
       cmap_get (tr_map (so_tr s)) id' = Some vid -> id' = id)
}.

(** The events the solver and the kernel may produce: certified clauses are constraints of the proof
    (and not the private copy of a redundant clause), learned clauses are derived by resolution from
    clauses the solver still has, only redundant clauses are deleted, lines of the kernel are
    accepted and leave the constraints of the solver's clauses alone *)
Definition ev_ok (k0 : chk) (s : sol_st) (e : event) : Prop :=
  let k := kof k0 (so_p s) in
  match e with
  | EvCert c id =>
      nontaut (cl_ax c) /\ (exists C, In (id, C) (k_all k) /\ clausal C (cl_ax c)) /\
      (forall j cj, lookup (so_cls s) j = Some (cj, Red) -> cmap_get (tr_map (so_tr s)) j <> Some id)
  | EvPlain _ => False
  | EvLearn _ c ants | EvCore c ants =>
      exists cs, Forall2 (fun id d => exists st, lookup (so_cls s) id = Some (d, st) /\ st <> Gone) ants cs /\
        derives (map cl_ax cs) (cl_ax c)
  | EvRestore _ => True
  | EvDelete id red => red = true -> exists c, lookup (so_cls s) id = Some (c, Red)
  | EvStrengthen id => exists c st, lookup (so_cls s) id = Some (c, st) /\ st <> Gone
  | EvStatus id => id <> O -> exists c, lookup (so_cls s) id = Some c
  | EvLine st _ =>
      step_valid k st /\
      match st with
      | SDel ids _ => forall j cj x vid, lookup (so_cls s) j = Some (cj, x) -> x <> Gone ->
          cmap_get (tr_map (so_tr s)) j = Some vid -> ~ In vid (map (cid_abs (k_next k)) ids)
      | SCore ids => forall j cj vid, lookup (so_cls s) j = Some (cj, Red) ->
          cmap_get (tr_map (so_tr s)) j = Some vid -> ~ In vid (map (cid_abs (k_next k)) ids)
      | _ => True
      end
  end.
Fixpoint evs_ok (debug : bool) (first : nat) (k0 : chk) (s : sol_st) (es : list event) : Prop :=
  match es with
  | [] => True
  | e :: r => ev_ok k0 s e /\ forall s', run_event debug first e s = Some s' -> evs_ok debug first k0 s' r
  end.

Lemma lookup_app : forall cls x id y, lookup (cls ++ [x]) id = Some y ->
  lookup cls id = Some y \/ (id = S (length cls) /\ y = x).
Proof.
  intros cls x [|n] y H; [discriminate|]. cbn [lookup] in *.
  destruct (Nat.lt_ge_cases n (length cls)) as [L|L].
  - rewrite nth_error_app1 in H by exact L. left. exact H.
  - rewrite nth_error_app2 in H by exact L. right.
    destruct (n - length cls)%nat as [|m] eqn:E; [|destruct m; discriminate]. cbn in H. injection H as <-.
    split; [f_equal; lia|reflexivity].
Qed.
Lemma lookup_bound : forall cls id y, lookup cls id = Some y -> (id <= length cls)%nat /\ id <> O.
Proof.
  intros cls [|n] y H; [discriminate|]. cbn [lookup] in H. split; [|discriminate].
  apply Nat.le_succ_l. apply nth_error_Some. congruence.
Qed.
Lemma cmap_bound : forall m id v, cmap_get m id = Some v -> (id <= length m)%nat.
Proof. intros m [|n] v H; [discriminate|]. cbn [cmap_get] in H. apply Nat.le_succ_l. apply nth_error_Some. congruence. Qed.
Lemma cmap_app_old : forall m x id, (id <= length m)%nat -> cmap_get (m ++ [x]) id = cmap_get m id.
Proof. intros m x [|n] H; [reflexivity|]. cbn [cmap_get]. apply nth_error_app1. lia. Qed.
Lemma cmap_app_new : forall m x, cmap_get (m ++ [x]) (S (length m)) = Some x.
Proof. intros m x. cbn [cmap_get]. rewrite nth_error_app2 by lia. rewrite Nat.sub_diag. reflexivity. Qed.
Lemma cmap_some : forall m id, id <> O -> (id <= length m)%nat -> exists v, cmap_get m id = Some v.
Proof.
  intros m [|n] H L; [contradiction|]. cbn [cmap_get]. destruct (nth_error m n) as [v|] eqn:E; [exists v; reflexivity|].
  apply nth_error_None in E. lia.
Qed.
Lemma set_stat_len : forall cls n x, length (set_stat cls n x) = length cls.
Proof.
  induction cls as [|[c y] cls IH]; intros [|n] x; cbn [set_stat length]; try reflexivity. rewrite IH. reflexivity.
Qed.
Lemma set_stat_get : forall cls n x m, nth_error (set_stat cls n x) m =
  if Nat.eqb m n then match nth_error cls m with Some (c, _) => Some (c, x) | None => None end else nth_error cls m.
Proof.
  induction cls as [|[c y] cls IH]; intros n x m.
  - cbn [set_stat]. destruct m; cbn [nth_error]; destruct (Nat.eqb _ n); reflexivity.
  - destruct n as [|n]; cbn [set_stat]; destruct m as [|m]; cbn [nth_error Nat.eqb]; try reflexivity. apply IH.
Qed.
Lemma lookup_set : forall cls id x j y, id <> O -> lookup (set_stat cls (id - 1) x) j = Some y ->
  (j = id /\ snd y = x /\ exists st, lookup cls j = Some (fst y, st)) \/ (j <> id /\ lookup cls j = Some y).
Proof.
  intros cls [|n] x [|m] y Hid H; try contradiction; [discriminate|]. cbn [lookup] in *.
  rewrite Nat.sub_succ, Nat.sub_0_r in H. rewrite set_stat_get in H. destruct (Nat.eqb_spec m n) as [->|N].
  - left. destruct (nth_error cls n) as [[c st]|]; [|discriminate]. injection H as <-. cbn [fst snd].
    split; [reflexivity|]. split; [reflexivity|]. exists st. reflexivity.
  - right. split; [lia|exact H].
Qed.

(** moving to core and deleting *)
Lemma core_all : forall k ids e, In e (k_all (step_next k (SCore ids))) <-> In e (k_all k).
Proof. exact step_core_all. Qed.
Lemma core_core : forall k ids i C, In (i, C) (k_core (step_next k (SCore ids))) ->
  In (i, C) (k_core k) \/ In i (map (cid_abs (k_next k)) ids).
Proof.
  intros k ids i C H. cbn [step_next k_core] in H. apply in_app_or in H. destruct H as [H|H]; [|left; exact H].
  unfold pick_ids in H. apply filter_In in H. destruct H as (_ & H). apply existsb_exists in H. destruct H as (n & Hn & E).
  cbn [fst] in E. apply Nat.eqb_eq in E. subst n. right. exact Hn.
Qed.
Lemma del_all : forall k ids gs i C, In (i, C) (k_all (step_next k (SDel ids gs))) <->
  In (i, C) (k_all k) /\ ~ In i (map (cid_abs (k_next k)) ids).
Proof.
  intros k ids gs i C. rewrite !in_k_all. cbn [step_next k_core k_der]. unfold rm_ids. rewrite !filter_In. cbn [fst].
  assert (G : negb (existsb (fun n => Nat.eqb i n) (map (cid_abs (k_next k)) ids)) = true <-> ~ In i (map (cid_abs (k_next k)) ids)).
  { rewrite negb_true_iff. split.
    - intros H Hi. rewrite <- not_true_iff_false in H. apply H. apply existsb_exists. exists i. split; [exact Hi|apply Nat.eqb_refl].
    - intros H. apply not_true_iff_false. intros E. apply existsb_exists in E. destruct E as (n & Hn & En). apply Nat.eqb_eq in En. subst n. exact (H Hn). }
  rewrite G. tauto.
Qed.
Lemma del_core : forall k ids gs e, In e (k_core (step_next k (SDel ids gs))) -> In e (k_core k).
Proof. intros k ids gs e H. cbn [step_next k_core] in H. unfold rm_ids in H. apply filter_In in H. tauto. Qed.

Lemma gives_id_next : forall k st, step_valid k st -> k_next (step_next k st) = if gives_id st then S (k_next k) else k_next k.
Proof.
  intros k st Hv. destruct st as [p|c hs|c w gs|ls full|ids|ids gs]; cbn [step_next gives_id]; try reflexivity.
  cbn [step_valid] in Hv. destruct (pol_eval pv_eqd (id_get (k_all k) (k_next k)) p); [reflexivity|contradiction].
Qed.
(** one accepted line *)
Lemma al_step : forall k0 cls t p p' st, aligned k0 (mkSol cls t p) -> step_valid (kof k0 p) st ->
  ps_log p' = ps_log p ++ [st] -> ps_next p' = (if gives_id st then S (ps_next p) else ps_next p) ->
  (forall id c x vid C, lookup cls id = Some (c, x) -> x <> Gone -> cmap_get (tr_map t) id = Some vid ->
     In (vid, C) (k_all (kof k0 p)) -> In (vid, C) (k_all (step_next (kof k0 p) st))) ->
  (forall id c vid C, lookup cls id = Some (c, Red) -> cmap_get (tr_map t) id = Some vid ->
     In (vid, C) (k_core (step_next (kof k0 p) st)) -> In (vid, C) (k_core (kof k0 p))) ->
  aligned k0 (mkSol cls t p').
Proof.
  intros k0 cls t p p' st [A1 A2 A3 A4 A5 A6] Hv El En Hkeep Hred. cbn [so_cls so_tr so_p] in *.
  assert (Ek : kof k0 p' = step_next (kof k0 p) st) by (unfold kof; rewrite El, steps_next_app; reflexivity).
  constructor; cbn [so_cls so_tr so_p].
  - exact A1.
  - rewrite Ek. apply step_ids. exact A2.
  - rewrite El. apply steps_valid_app. split; [exact A3|]. split; [exact Hv|exact Logic.I].
  - rewrite Ek, En, (gives_id_next _ _ Hv), A4. reflexivity.
  - intros id c x Hl Hx. destruct (A5 id c x Hl Hx) as (Hn & vid & C & M1 & M2 & M3). split; [exact Hn|].
    exists vid, C. split; [exact M1|]. split; [|exact M3]. rewrite Ek. exact (Hkeep id c x vid C Hl Hx M1 M2).
  - intros id c Hl vid Hm. destruct (A6 id c Hl vid Hm) as (R1 & R2 & R3). split; [|split; [|exact R3]].
    + intros C HC. rewrite Ek in HC. apply (R1 C). exact (Hred id c vid C Hl Hm HC).
    + rewrite En. destruct (gives_id st); lia.
Qed.
(** one more clause *)
Lemma al_add : forall k0 cls t p c x vid C co cn, aligned k0 (mkSol cls t p) -> x <> Gone ->
  nontaut (cl_ax c) -> In (vid, C) (k_all (kof k0 p)) -> clausal C (cl_ax c) ->
  (forall id ci, lookup cls id = Some (ci, Red) -> cmap_get (tr_map t) id <> Some vid) ->
  (x = Red -> (forall D, ~ In (vid, D) (k_core (kof k0 p))) /\
     forall id ci y, lookup cls id = Some (ci, y) -> y <> Gone -> cmap_get (tr_map t) id <> Some vid) ->
  aligned k0 (mkSol (cls ++ [(c, x)]) (mkTr (tr_map t ++ [vid]) co cn) p).
Proof.
  intros k0 cls t p c x vid C co cn [A1 A2 A3 A4 A5 A6] Hx Hnt Hin HC Hr Hnew. cbn [so_cls so_tr so_p] in *.
  assert (Hold : forall id y, lookup cls id = Some y -> cmap_get (tr_map t ++ [vid]) id = cmap_get (tr_map t) id).
  { intros id y Hl. apply cmap_app_old. rewrite A1. apply (lookup_bound cls id y Hl). }
  assert (Hnw : cmap_get (tr_map t ++ [vid]) (S (length cls)) = Some vid) by (rewrite <- A1; apply cmap_app_new).
  constructor; cbn [so_cls so_tr so_p tr_map].
  - rewrite !app_length, A1. reflexivity.
  - exact A2.
  - exact A3.
  - exact A4.
  - intros id ci y Hl Hy. apply lookup_app in Hl. destruct Hl as [Hl|(-> & E)].
    + destruct (A5 id ci y Hl Hy) as (Hn & v & D & M1 & M2 & M3). split; [exact Hn|]. exists v, D. cbn [tr_map].
      rewrite (Hold id _ Hl). tauto.
    + injection E as -> ->. split; [exact Hnt|]. exists vid, C. cbn [tr_map]. tauto.
  - intros id ci Hl v Hm. apply lookup_app in Hl. destruct Hl as [Hl|(-> & E)].
    + rewrite (Hold id _ Hl) in Hm. destruct (A6 id ci Hl v Hm) as (R1 & R2 & R3). split; [exact R1|]. split; [exact R2|].
      intros id' c' y Hl' Hy Hm'. apply lookup_app in Hl'. destruct Hl' as [Hl'|(-> & E)].
      * rewrite (Hold id' _ Hl') in Hm'. exact (R3 id' c' y Hl' Hy Hm').
      * exfalso. rewrite Hnw in Hm'. injection Hm' as <-. exact (Hr id ci Hl Hm).
    + injection E as -> <-. rewrite Hnw in Hm. injection Hm as <-. destruct (Hnew eq_refl) as (N1 & N2).
      split; [exact N1|]. split.
      * destruct A2 as (_ & A2). specialize (A2 _ Hin). cbn [fst] in A2. rewrite <- A4. exact A2.
      * intros id' c' y Hl' Hy Hm'. apply lookup_app in Hl'. destruct Hl' as [Hl'|(-> & _)]; [|reflexivity].
        exfalso. rewrite (Hold id' _ Hl') in Hm'. exact (N2 id' c' y Hl' Hy Hm').
Qed.

(** the derivation of a learned clause *)
Lemma add_derived_ok : forall k0 cls t p red c ants cs co0 cn0, aligned k0 (mkSol cls t p) ->
  co0 = tr_core t -> cn0 = tr_concl t ->
  Forall2 (fun id d => exists st, lookup cls id = Some (d, st) /\ st <> Gone) ants cs ->
  derives (map cl_ax cs) (cl_ax c) ->
  exists vid t' p', add_derived (S (length cls)) red ants t p = Some (vid, t', p') /\
    t' = mkTr (tr_map t ++ [vid]) co0 cn0 /\ vid = ps_next p /\
    (forall co cn, aligned k0 (mkSol (cls ++ [(c, if red then Red else Irr)]) (mkTr (tr_map t ++ [vid]) co cn) p')).
Proof.
  intros k0 cls t p red c ants cs co0 cn0 A -> -> Hants Hd.
  set (k := kof k0 p).
  assert (Hm : exists pids, opt_all (map (cmap_get (tr_map t)) ants) = Some pids /\
      Forall2 (fun i d => nontaut d /\ exists D, id_get (k_all k) (k_next k) (CAbs i) = Some D /\ clausal D d) pids (map cl_ax cs)).
  { clear Hd. induction Hants as [|id d ants cs (st & Hl & Hst) Hants IH]; [exists []; split; [reflexivity|constructor]|].
    destruct IH as (pids & E & F). destruct (al_live _ _ A id d st Hl Hst) as (Hn & vid & D & M1 & M2 & M3).
    cbn [so_tr so_p] in M1, M2. exists (vid :: pids). cbn [map opt_all]. rewrite M1, E. split; [reflexivity|].
    constructor; [|exact F]. split; [exact Hn|]. exists D. split; [|exact M3]. cbn [id_get]. apply k_get; [|exact M2].
    exact (al_ids _ _ A). }
  destruct Hm as (pids & Ep & Fp). destruct (derivation_ok _ pids (map cl_ax cs) (cl_ax c) Fp Hd) as (pl & C & Epl & EC & Hnt & HC).
  unfold add_derived. rewrite Ep. unfold write_derived. rewrite Epl. cbn [wr_id].
  unfold cmap_add_checked. pose proof (al_len _ _ A) as AL. cbn [so_tr so_cls] in AL.
  rewrite app_length. cbn [length]. rewrite AL, Nat.add_1_r, Nat.eqb_refl.
  eexists. eexists. eexists. split; [reflexivity|]. split; [reflexivity|]. split; [reflexivity|].
  intros co cn. set (p1 := mkPst (S (ps_next p)) (ps_nextvar p) (ps_log p ++ [SPol pl]) (ps_vmap p) (ps_bounds p) (ps_reg p)).
  assert (Hv : step_valid k (SPol pl)) by (cbn [step_valid]; fold k; rewrite EC; discriminate).
  assert (Es : step_next k (SPol pl) = add_der k C) by (cbn [step_next]; rewrite EC; reflexivity).
  assert (A1 : aligned k0 (mkSol cls t p1)).
  { apply (al_step k0 cls t p p1 (SPol pl) A Hv); [reflexivity|reflexivity| |].
    - intros id ci x v D _ _ _ HD. fold k. rewrite Es. apply in_add_der. right. exact HD.
    - intros id ci v D _ _ HD. fold k in HD. rewrite Es in HD. exact HD. }
  assert (Ek1 : kof k0 p1 = add_der k C) by (unfold kof, p1; cbn [ps_log]; rewrite steps_next_app; exact Es).
  assert (Hnext : k_next k = ps_next p) by exact (al_next _ _ A).
  assert (Hfresh : forall id ci y, lookup cls id = Some (ci, y) -> y <> Gone -> cmap_get (tr_map t) id <> Some (ps_next p)).
  { intros id ci y Hl Hy Hm. destruct (al_live _ _ A id ci y Hl Hy) as (_ & v & D & M1 & M2 & _). cbn [so_tr so_p] in M1, M2.
    rewrite Hm in M1. injection M1 as <-. destruct (al_ids _ _ A) as (_ & I2). specialize (I2 _ M2). cbn [fst so_p] in I2.
    fold k in I2. lia. }
  assert (Hin : In (ps_next p, C) (k_all (kof k0 p1))) by (rewrite Ek1; apply in_add_der; left; rewrite Hnext; reflexivity).
  assert (Hadd : aligned k0 (mkSol (cls ++ [(c, if red then Red else Irr)]) (mkTr (tr_map t ++ [ps_next p]) co cn) p1)).
  { apply (al_add k0 cls t p1 c (if red then Red else Irr) (ps_next p) C co cn A1); [destruct red; discriminate|exact Hnt|exact Hin|exact HC| |].
    - intros id ci Hl. apply (Hfresh id ci Red Hl). discriminate.
    - intros _. split.
      + intros D HD. rewrite Ek1 in HD. cbn [add_der k_core] in HD. destruct (al_ids _ _ A) as (_ & I2).
        assert (X : In (ps_next p, D) (k_all (kof k0 p))) by (apply in_k_all; left; exact HD).
        specialize (I2 _ X). cbn [fst so_p] in I2. fold k in I2. lia.
      + exact Hfresh. }
  destruct red; [exact Hadd|].
  apply (al_step k0 _ _ p1 _ (SCore [CAbs (ps_next p)]) Hadd); [exact Logic.I|reflexivity|reflexivity| |].
  - intros id ci x v D _ _ _ HD. apply core_all. exact HD.
  - intros id ci v D Hl Hm HD. apply core_core in HD. destruct HD as [HD|[E|[]]]; [exact HD|]. cbn [cid_abs] in E. subst v.
    exfalso. apply lookup_app in Hl. destruct Hl as [Hl|(_ & E)]; [|discriminate].
    cbn [tr_map] in Hm. rewrite cmap_app_old in Hm by (rewrite AL; apply (lookup_bound cls id _ Hl)).
    apply (Hfresh id ci Red Hl); [discriminate|exact Hm].
Qed.

(** every event the tracer is told of succeeds and keeps the ids aligned *)
Lemma event_ok : forall debug first k0 s e, aligned k0 s -> ev_ok k0 s e ->
  exists s', run_event debug first e s = Some s' /\ aligned k0 s'.
Proof.
  intros debug first k0 [cls t p] e A He. pose proof (al_len _ _ A) as AL. cbn [so_tr so_cls] in AL.
  destruct e as [c id|c|red c ants|c ants|id|id red|id|id|st nv]; cbn [run_event]; cbn [ev_ok so_p so_cls so_tr] in He.
  - (* certified clause *)
    destruct He as (Hnt & (C & Hin & HC) & Hr).
    unfold add_original, cmap_add. cbn [tr_map]. rewrite app_length. cbn [length]. rewrite AL, Nat.add_1_r, Nat.eqb_refl, andb_false_r.
    pose proof (cmap_app_new (tr_map t) id) as G. rewrite AL in G. rewrite G.
    eexists. split; [reflexivity|].
    assert (Ha : aligned k0 (mkSol (cls ++ [(c, Irr)]) (mkTr (tr_map t ++ [id]) (tr_core t) (tr_concl t)) p)).
    { apply (al_add k0 cls t p c Irr id C); try assumption; discriminate. }
    destruct (Nat.leb first id); [|exact Ha].
    apply (al_step k0 _ _ p _ (SCore [CAbs id]) Ha); [exact Logic.I|reflexivity|reflexivity| |].
    + intros j cj x v D _ _ _ HD. apply core_all. exact HD.
    + intros j cj v D Hl Hm HD. apply core_core in HD. destruct HD as [HD|[E|[]]]; [exact HD|]. cbn [cid_abs] in E. subst v.
      exfalso. apply lookup_app in Hl. destruct Hl as [Hl|(_ & E)]; [|discriminate].
      cbn [tr_map] in Hm. rewrite cmap_app_old in Hm by (rewrite AL; apply (lookup_bound cls j _ Hl)).
      exact (Hr j cj Hl Hm).
  - destruct He.
  - destruct He as (cs & F & Hd).
    destruct (add_derived_ok k0 cls t p red c ants cs _ _ A eq_refl eq_refl F Hd) as (vid & t' & p' & E & -> & _ & Ha).
    rewrite E. eexists. split; [reflexivity|]. apply Ha.
  - destruct He as (cs & F & Hd).
    destruct (add_derived_ok k0 cls t p true c ants cs _ _ A eq_refl eq_refl F Hd) as (vid & t' & p' & E & -> & _ & Ha).
    unfold add_assumption_clause. rewrite E. eexists. split; [reflexivity|]. apply Ha.
  - eexists. split; [reflexivity|]. exact A.
  - unfold delete_clause. destruct red; cbn [negb].
    + destruct (He eq_refl) as (c & Hl). destruct (lookup_bound _ _ _ Hl) as (Hb & H0).
      destruct (cmap_some (tr_map t) id H0) as (vid & Ev); [rewrite AL; exact Hb|]. rewrite Ev.
      eexists. split; [reflexivity|].
      destruct (al_red _ _ A id c Hl vid Ev) as (R1 & R2 & R3). cbn [so_p so_cls so_tr] in R1, R2, R3.
      (* first forget the clause, then delete the constraint *)
      assert (Ag : aligned k0 (mkSol (set_stat cls (id - 1) Gone) t p)).
      { destruct A as [A1 A2 A3 A4 A5 A6]. cbn [so_cls so_tr so_p] in *. constructor; cbn [so_cls so_tr so_p].
        - rewrite set_stat_len. exact A1.
        - exact A2.
        - exact A3.
        - exact A4.
        - intros j cj x Hj Hx. apply lookup_set in Hj; [|exact H0]. destruct Hj as [(_ & E & _)|(_ & Hj)]; [cbn [snd] in E; congruence|].
          exact (A5 j cj x Hj Hx).
        - intros j cj Hj v Hm. apply lookup_set in Hj; [|exact H0]. destruct Hj as [(_ & E & _)|(_ & Hj)]; [discriminate|].
          destruct (A6 j cj Hj v Hm) as (S1 & S2 & S3). split; [exact S1|]. split; [exact S2|].
          intros j' c' x Hj' Hx. apply lookup_set in Hj'; [|exact H0]. destruct Hj' as [(_ & E & _)|(_ & Hj')]; [cbn [snd] in E; congruence|].
          exact (S3 j' c' x Hj' Hx). }
      apply (al_step k0 _ _ p _ (SDel [CAbs vid] []) Ag); [|reflexivity|reflexivity| |].
      * cbn [step_valid map cid_abs del_ok]. destruct (e_get (k_core (kof k0 p)) vid) as [C|] eqn:E; [|exact Logic.I].
        exfalso. apply e_get_in in E. exact (R1 C E).
      * intros j cj x v D Hj Hx Hm HD. apply del_all. split; [exact HD|]. cbn [map cid_abs]. intros [<-|[]].
        apply lookup_set in Hj; [|exact H0]. destruct Hj as [(_ & E & _)|(Nj & Hj)]; [cbn [snd] in E; congruence|].
        apply Nj. exact (R3 j cj x Hj Hx Hm).
      * intros j cj v D _ _ HD. apply del_core in HD. exact HD.
    + eexists. split; [reflexivity|]. exact A.
  - destruct He as (c & x & Hl & Hx). destruct (lookup_bound _ _ _ Hl) as (Hb & H0).
    destruct (cmap_some (tr_map t) id H0) as (vid & Ev); [rewrite AL; exact Hb|].
    unfold strengthen. rewrite Ev. eexists. split; [reflexivity|].
    assert (Ag : aligned k0 (mkSol (set_stat cls (id - 1) Irr) t p)).
    { destruct A as [A1 A2 A3 A4 A5 A6]. cbn [so_cls so_tr so_p] in *. constructor; cbn [so_cls so_tr so_p].
      - rewrite set_stat_len. exact A1.
      - exact A2.
      - exact A3.
      - exact A4.
      - intros j cj y Hj Hy. apply lookup_set in Hj; [|exact H0]. destruct Hj as [(-> & E & st & Hs)|(_ & Hj)].
        + rewrite Hl in Hs. cbn [fst] in Hs. injection Hs as <- <-. exact (A5 id c x Hl Hx).
        + exact (A5 j cj y Hj Hy).
      - intros j cj Hj v Hm. apply lookup_set in Hj; [|exact H0]. destruct Hj as [(_ & E & _)|(Nj & Hj)]; [discriminate|].
        destruct (A6 j cj Hj v Hm) as (S1 & S2 & S3). split; [exact S1|]. split; [exact S2|].
        intros j' c' y Hj' Hy Hm'. apply lookup_set in Hj'; [|exact H0]. destruct Hj' as [(-> & E & st & Hs)|(_ & Hj')].
        + rewrite Hl in Hs. cbn [fst] in Hs. injection Hs as <- <-. exact (S3 id c x Hl Hx Hm').
        + exact (S3 j' c' y Hj' Hy Hm'). }
    apply (al_step k0 _ _ p _ (SCore [CAbs vid]) Ag); [exact Logic.I|reflexivity|reflexivity| |].
    + intros j cj y v D _ _ _ HD. apply core_all. exact HD.
    + intros j cj v D Hj Hm HD. apply core_core in HD. destruct HD as [HD|[E|[]]]; [exact HD|]. cbn [cid_abs] in E. subst v.
      exfalso. apply lookup_set in Hj; [|exact H0]. destruct Hj as [(_ & E & _)|(Nj & Hj)]; [discriminate|].
      destruct (al_red _ _ A j cj Hj vid Hm) as (_ & _ & R3). cbn [so_cls so_tr] in R3. apply Nj. symmetry. exact (R3 id c x Hl Hx Ev).
  - unfold report_status. destruct id as [|n]; cbn [Nat.ltb Nat.leb].
    + eexists. split; [reflexivity|]. exact A.
    + destruct (He ltac:(discriminate)) as (y & Hl). destruct (lookup_bound _ _ _ Hl) as (Hb & H0).
      destruct (cmap_some (tr_map t) (S n) H0) as (vid & Ev); [rewrite AL; exact Hb|]. rewrite Ev.
      eexists. split; [reflexivity|]. destruct A as [A1 A2 A3 A4 A5 A6]. constructor; assumption.
  - destruct He as (Hv & Hk). eexists. split; [reflexivity|].
    apply (al_step k0 cls t p _ st A Hv); [reflexivity|reflexivity| |].
    + intros id c x v D Hl Hx Hm HD. destruct st as [pl|cc hs|cc w gs|ls full|ids|ids gs].
      * cbn [step_next]. destruct (pol_eval pv_eqd (id_get (k_all (kof k0 p)) (k_next (kof k0 p))) pl); [apply in_add_der; right|]; exact HD.
      * cbn [step_next]. apply in_add_der. right. exact HD.
      * cbn [step_next]. apply in_add_der. right. exact HD.
      * apply in_k_all. apply in_k_all in HD. cbn [step_next k_core k_der In]. tauto.
      * apply core_all. exact HD.
      * apply del_all. split; [exact HD|]. exact (Hk id c x v Hl Hx Hm).
    + intros id c v D Hl Hm HD. destruct st as [pl|cc hs|cc w gs|ls full|ids|ids gs].
      * cbn [step_next] in HD. destruct (pol_eval pv_eqd (id_get (k_all (kof k0 p)) (k_next (kof k0 p))) pl); exact HD.
      * exact HD.
      * exact HD.
      * cbn [step_next k_core] in HD. destruct HD as [E|HD]; [|exact HD]. injection E as E _. exfalso.
        destruct (al_red _ _ A id c Hl v Hm) as (_ & R2 & _). pose proof (al_next _ _ A) as N. cbn [so_p] in R2, N. lia.
      * apply core_core in HD. destruct HD as [HD|HD]; [exact HD|]. exfalso. exact (Hk id c v Hl Hm HD).
      * apply del_core in HD. exact HD.
Qed.
Lemma events_ok : forall debug first k0 es s, aligned k0 s -> evs_ok debug first k0 s es ->
  exists s', run_events debug first es s = Some s' /\ aligned k0 s'.
Proof.
  intros debug first k0 es. induction es as [|e es IH]; intros s A H; [exists s; split; [reflexivity|exact A]|].
  destruct H as (He & Hr). destruct (event_ok debug first k0 s e A He) as (s1 & E1 & A1). cbn [run_events]. rewrite E1.
  exact (IH s1 A1 (Hr s1 E1)).
Qed.
