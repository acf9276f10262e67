(** * The objective reformulation derived in the proof during core boosting *)
From Coq Require Import List Arith ZArith Lia Bool.
From Verif Require Import Base BaseLemmas MTypes MPMinimal MPrepro VeriPB VeriThm MProofs ProofThm ProofRun ProofCut MTracer TracerThm MReform ReformSpec.
Import ListNotations.
Local Open Scope Z_scope.

(** normal form: sum of the literals >= k *)
Definition card (C : pconstr) (ls : list (ax pv)) (k : Z) : Prop :=
  (forall v, lb_coef pv_eqd C v = cl_coef ls v) /\ lb_degree pv_eqd C = k.
Lemma proper_nontaut : forall ls, proper_ls ls -> nontaut ls.
Proof.
  intros ls. induction ls as [|x ls IH]; intros H l; [intros []|]. inversion H as [|y ys Hy Hr]; subst.
  intros [->|Hl] [E|Hn].
  - destruct l as [v n]. unfold ax_not in E. cbn in E. injection E as E. destruct n; discriminate.
  - apply Hy. apply in_map_iff. exists (ax_not l). split; [reflexivity|exact Hn].
  - apply Hy. apply in_map_iff. exists l. split; [|exact Hl]. rewrite E. reflexivity.
  - exact (IH Hr l Hl Hn).
Qed.
Lemma proper_nodup : forall ls, proper_ls ls -> NoDup ls.
Proof. intros ls H. exact (NoDup_map_inv ax_var ls H). Qed.

Lemma coef_ones : forall ls v, proper_ls ls -> t_coef pv_eqd (ones ls) v = cl_coef ls v.
Proof.
  intros ls v H. destruct (clausal_clause ls (proper_nodup ls H) (proper_nontaut ls H)) as (X & _).
  exact (X v).
Qed.
Lemma card_ones : forall ls k, proper_ls ls -> card (mkLb (ones ls) k) ls k.
Proof.
  intros ls k H. split; [intros v; apply coef_ones; exact H|].
  destruct (clausal_clause ls (proper_nodup ls H) (proper_nontaut ls H)) as (_ & X).
  unfold lb_degree, lb_rhs, lb_coef, lb_vars in *. cbn [lb_terms lb_bound lb_clause] in *. unfold ones. lia.
Qed.
(** the value is determined by the normal form *)
Lemma same_val : forall (c d : pconstr), (forall v, lb_coef pv_eqd c v = lb_coef pv_eqd d v) ->
  lb_degree pv_eqd c = lb_degree pv_eqd d -> forall a, lb_val a c = lb_val a d.
Proof.
  intros c d Hc Hd a. destruct (nodup_both pv_eqd c d) as (vs & Hn & Vc & Vd).
  rewrite (lb_degree_any pv_eqd c vs Hn Vc), (lb_degree_any pv_eqd d vs Hn Vd) in Hd.
  rewrite (vsum_ext vs (fun v => Z.max 0 (- lb_coef pv_eqd c v)) (fun v => Z.max 0 (- lb_coef pv_eqd d v))) in Hd
    by (intros v _; rewrite Hc; reflexivity).
  assert (Hr : lb_rhs c = lb_rhs d) by lia.
  unfold lb_val. unfold lb_rhs in Hr.
  assert (Ic : incl (map (fun t => ax_var (snd t)) (lb_terms c)) vs) by (intros v X; apply Vc; apply in_lb_vars; exact X).
  assert (Id : incl (map (fun t => ax_var (snd t)) (lb_terms d)) vs) by (intros v X; apply Vd; apply in_lb_vars; exact X).
  rewrite (lb_sum_net pv_eqd a (lb_terms c) vs Hn Ic), (lb_sum_net pv_eqd a (lb_terms d) vs Hn Id).
  rewrite (vsum_ext vs _ (fun v => t_coef pv_eqd (lb_terms d) v * b2z (a v))); [lia|].
  intros v _. specialize (Hc v). unfold lb_coef in Hc. rewrite Hc. reflexivity.
Qed.
(** number of true literals *)
Definition cnt (a : pv -> bool) (ls : list (ax pv)) : Z := lb_sum a (ones ls).
Lemma cnt_app : forall a l1 l2, cnt a (l1 ++ l2) = cnt a l1 + cnt a l2.
Proof. intros. unfold cnt, ones. rewrite map_app. apply lb_sum_app. Qed.
Lemma card_val : forall C ls k a, proper_ls ls -> card C ls k -> lb_val a C = cnt a ls - k.
Proof.
  intros C ls k a H [C1 C2]. destruct (card_ones ls k H) as [D1 D2].
  rewrite (same_val C (mkLb (ones ls) k)); [reflexivity| |].
  - intros v. rewrite C1, D1. reflexivity.
  - rewrite C2, D2. reflexivity.
Qed.

Definition sgn (l : ax pv) : Z := if ax_neg l then -1 else 1.
Lemma cl_out : forall ls v, ~ In v (map ax_var ls) -> cl_coef ls v = 0.
Proof.
  intros ls v H. unfold cl_coef.
  destruct (in_dec ax_eqd (mkAx v false) ls) as [X|_]; [exfalso; apply H; apply in_map_iff; exists (mkAx v false); tauto|].
  destruct (in_dec ax_eqd (mkAx v true) ls) as [X|_]; [exfalso; apply H; apply in_map_iff; exists (mkAx v true); tauto|reflexivity].
Qed.
Lemma cl_snoc : forall M l v, ~ In (ax_var l) (map ax_var M) ->
  cl_coef (M ++ [l]) v = if pv_eqd (ax_var l) v then sgn l else cl_coef M v.
Proof.
  intros M l v H. destruct (pv_eqd (ax_var l) v) as [<-|N].
  - pose proof (cl_out M _ H) as Z0. unfold cl_coef in *. destruct l as [x n]. cbn [ax_var ax_neg] in *. unfold sgn. cbn [ax_neg].
    assert (A : forall b, ~ In (mkAx x b) M) by (intros b X; apply H; apply in_map_iff; exists (mkAx x b); tauto).
    destruct (in_dec ax_eqd (mkAx x false) (M ++ [mkAx x n])) as [X|X].
    + apply in_app_iff in X. destruct X as [X|[X|[]]]; [exfalso; exact (A _ X)|]. injection X as ->. reflexivity.
    + destruct (in_dec ax_eqd (mkAx x true) (M ++ [mkAx x n])) as [Y|Y].
      * apply in_app_iff in Y. destruct Y as [Y|[Y|[]]]; [exfalso; exact (A _ Y)|]. injection Y as ->. reflexivity.
      * exfalso. destruct n; [apply Y|apply X]; apply in_or_app; right; left; reflexivity.
  - unfold cl_coef.
    assert (G : forall b, In (mkAx v b) (M ++ [l]) <-> In (mkAx v b) M).
    { intros b. rewrite in_app_iff. split; [|tauto]. intros [X|[X|[]]]; [exact X|]. exfalso. apply N. rewrite X. reflexivity. }
    destruct (in_dec ax_eqd (mkAx v false) (M ++ [l])) as [A|A], (in_dec ax_eqd (mkAx v false) M) as [B|B]; try reflexivity;
      try (exfalso; apply G in A; contradiction); try (exfalso; apply A; apply G; exact B).
    destruct (in_dec ax_eqd (mkAx v true) (M ++ [l])) as [C|C], (in_dec ax_eqd (mkAx v true) M) as [D|D]; try reflexivity;
      exfalso; [apply G in C; contradiction|apply C; apply G; exact D].
Qed.
Lemma cl_one : forall l v, cl_coef [l] v = if pv_eqd (ax_var l) v then sgn l else 0.
Proof. intros l v. pose proof (cl_snoc [] l v (fun X => X)) as E. cbn [app] in E. rewrite E. destruct (pv_eqd (ax_var l) v); reflexivity. Qed.
Lemma cl_sub : forall ls M v, incl ls M -> nontaut M -> cl_coef ls v = 0 \/ cl_coef ls v = cl_coef M v.
Proof.
  intros ls M v Hi Hn. unfold cl_coef at 1 2. destruct (in_dec ax_eqd (mkAx v false) ls) as [A|A].
  - right. symmetry. exact (cl_coef_in M (mkAx v false) Hn (Hi _ A)).
  - destruct (in_dec ax_eqd (mkAx v true) ls) as [B|B]; [|left; reflexivity].
    right. symmetry. exact (cl_coef_in M (mkAx v true) Hn (Hi _ B)).
Qed.
Lemma mul_degree : forall (c : pconstr) k, 0 <= k -> lb_degree pv_eqd (lb_mul k c) = k * lb_degree pv_eqd c.
Proof.
  intros c k Hk. assert (Hv : incl (lb_vars pv_eqd (lb_mul k c)) (lb_vars pv_eqd c)).
  { intros v Hv. apply in_lb_vars in Hv. apply in_lb_vars. unfold lb_mul in Hv. cbn [lb_terms] in Hv. rewrite map_map in Hv. exact Hv. }
  rewrite (lb_degree_any pv_eqd (lb_mul k c) (lb_vars pv_eqd c) (lb_vars_nodup pv_eqd c) Hv).
  rewrite (lb_degree_any pv_eqd c (lb_vars pv_eqd c) (lb_vars_nodup pv_eqd c) (incl_refl _)).
  rewrite lb_mul_rhs, Z.mul_add_distr_l. f_equal. rewrite <- vsum_mul. apply vsum_ext. intros v _. rewrite lb_mul_coef. nia.
Qed.

Lemma sum_degree0 : forall (c d : pconstr) vs, NoDup vs -> incl (lb_vars pv_eqd c) vs -> incl (lb_vars pv_eqd d) vs ->
  (forall v, lb_coef pv_eqd c v * lb_coef pv_eqd d v >= 0) ->
  lb_degree pv_eqd (lb_add c d) = lb_degree pv_eqd c + lb_degree pv_eqd d.
Proof.
  intros c d vs Hn Hc Hd H. rewrite (add_degree c d vs Hn Hc Hd), vsum_0; [lia|].
  intros v _. specialize (H v). unfold canc.
  assert (X : (lb_coef pv_eqd c v >= 0 /\ lb_coef pv_eqd d v >= 0) \/ (lb_coef pv_eqd c v <= 0 /\ lb_coef pv_eqd d v <= 0)) by nia.
  lia.
Qed.
Lemma odef_concrete : forall ls o v, proper_ls (o :: ls) -> 0 <= v -> odef (only_if_def ls o v) ls o v.
Proof.
  intros ls o v H Hv. inversion H as [|x xs Ho Hls]; subst.
  set (c := mkLb (ones ls) 0). set (d := lb_mul v (mkLb (ones [ax_not o]) 1)).
  assert (Hso : proper_ls [ax_not o]) by (repeat constructor; intros []).
  destruct (card_ones ls 0 Hls) as [C1 C2]. destruct (card_ones [ax_not o] 1 Hso) as [D1 D2].
  assert (E : only_if_def ls o v = lb_add c d).
  { unfold only_if_def, lb_add, c, d, lb_mul, ones. cbn [lb_terms lb_bound map fst snd]. rewrite Z.mul_1_r. f_equal. }
  rewrite E. split.
  - intros x. rewrite lb_add_coef. unfold c, d. rewrite lb_mul_coef, C1, D1. reflexivity.
  - destruct (nodup_both pv_eqd c d) as (vs & Hn & Hc & Hd). rewrite (sum_degree0 c d vs Hn Hc Hd).
    + unfold d. rewrite mul_degree by exact Hv. unfold c. rewrite C2, D2. lia.
    + intros x. unfold c, d. rewrite lb_mul_coef, C1, D1, cl_one. destruct (pv_eqd (ax_var (ax_not o)) x) as [<-|N]; [|lia].
      rewrite cl_out; [lia|exact Ho].
Qed.

(** ** One more output *)
Lemma reform_step : forall C D M ls o v, proper_ls M -> incl ls M -> ~ In (ax_var o) (map ax_var M) -> 2 <= v ->
  card C M (v - 1) -> odef D ls o v ->
  card (lb_div pv_eqd v (lb_add (lb_mul (v - 1) C) D)) (M ++ [ax_not o]) v.
Proof.
  intros C D M ls o v HM Hls Ho Hv [C1 C2] [D1 D2].
  assert (Hols : ~ In (ax_var o) (map ax_var ls)).
  { intros X. apply Ho. apply in_map_iff in X. destruct X as (y & Ey & Hy). apply in_map_iff. exists y. split; [exact Ey|exact (Hls _ Hy)]. }
  set (c := lb_mul (v - 1) C).
  assert (Hco : forall x, lb_coef pv_eqd c x = (v - 1) * cl_coef M x) by (intros x; unfold c; rewrite lb_mul_coef, C1; reflexivity).
  assert (Hdeg : lb_degree pv_eqd (lb_add c D) = (v - 1) * (v - 1) + v).
  { destruct (nodup_both pv_eqd c D) as (vs & Hn & Hc & Hd). rewrite (sum_degree0 c D vs Hn Hc Hd).
    - unfold c. rewrite mul_degree by lia. rewrite C2, D2. reflexivity.
    - intros x. rewrite Hco, D1, cl_one. cbn [ax_not ax_var]. destruct (pv_eqd (ax_var o) x) as [<-|N].
      + rewrite (cl_out M _ Ho). lia.
      + destruct (cl_sub ls M x Hls (proper_nontaut M HM)) as [-> | ->]; [lia|]. destruct (cl_coef_range M x) as [->|[-> | ->]]; nia. }
  split.
  - intros x. rewrite lb_div_coef by lia. rewrite lb_add_coef, Hco, D1, cl_one. cbn [ax_not ax_var].
    rewrite cl_snoc by exact Ho. cbn [ax_not ax_var]. destruct (pv_eqd (ax_var o) x) as [<-|N].
    + rewrite (cl_out M _ Ho), (cl_out ls _ Hols). fold (ax_not o). unfold div_coef, sgn. destruct (ax_neg (ax_not o)).
      * destruct (Z.leb_spec 0 ((v - 1) * 0 + (0 + v * -1))) as [L|L]; [lia|]. apply Z.opp_inj. rewrite Z.opp_involutive.
        apply cdiv_unique; lia.
      * destruct (Z.leb_spec 0 ((v - 1) * 0 + (0 + v * 1))) as [L|L]; [|lia]. apply cdiv_unique; lia.
    + rewrite Z.mul_0_r, Z.add_0_r.
      assert (G : forall t, t = 0 \/ t = cl_coef M x -> div_coef v ((v - 1) * cl_coef M x + t) = cl_coef M x).
      { intros t Ht. unfold div_coef. destruct (cl_coef_range M x) as [E|[E|E]]; rewrite E in *.
        - destruct (Z.leb_spec 0 ((v - 1) * 1 + t)) as [L|L]; [apply cdiv_unique; lia|lia].
        - destruct (Z.leb_spec 0 ((v - 1) * -1 + t)) as [L|L]; [lia|]. apply Z.opp_inj. rewrite Z.opp_involutive. apply cdiv_unique; lia.
        - destruct (Z.leb_spec 0 ((v - 1) * 0 + t)) as [L|L]; [apply cdiv_unique; lia|lia]. }
      apply G. apply cl_sub; [exact Hls|]. apply proper_nontaut. exact HM.
  - rewrite lb_div_degree, Hdeg. apply cdiv_unique; nia.
Qed.
(** a unit core over the newest output *)
Lemma reform_unit : forall C U M o k, proper_ls M -> ~ In (ax_var o) (map ax_var M) -> card C (M ++ [ax_not o]) k -> clausal U [o] ->
  card (lb_add C U) M k.
Proof.
  intros C U M o k HM Ho [C1 C2] [U1 U2].
  assert (Hc : forall x, lb_coef pv_eqd C x = if pv_eqd (ax_var o) x then sgn (ax_not o) else cl_coef M x).
  { intros x. rewrite C1, cl_snoc by exact Ho. reflexivity. }
  assert (Hu : forall x, lb_coef pv_eqd U x = if pv_eqd (ax_var o) x then sgn o else 0) by (intros x; rewrite U1; apply cl_one).
  split.
  - intros x. rewrite lb_add_coef, Hc, Hu. destruct (pv_eqd (ax_var o) x) as [<-|N]; [|lia].
    rewrite (cl_out M _ Ho). unfold sgn, ax_not. cbn [ax_neg]. destruct (ax_neg o); reflexivity.
  - destruct (nodup_both pv_eqd C U) as (vs & Hn & Vc & Vu). rewrite (add_degree C U vs Hn Vc Vu), C2, U2.
    rewrite (vsum_single vs (ax_var o)); [|exact Hn| |].
    + rewrite Hc, Hu. destruct (pv_eqd (ax_var o) (ax_var o)) as [_|N]; [|contradiction]. unfold canc, sgn, ax_not. cbn [ax_neg].
      destruct (ax_neg o); cbn; lia.
    + apply Vu. apply lb_vars_support. rewrite Hu. destruct (pv_eqd (ax_var o) (ax_var o)) as [_|N]; [|contradiction].
      unfold sgn. destruct (ax_neg o); discriminate.
    + intros x _ Hx. rewrite Hc, Hu. destruct (pv_eqd (ax_var o) x) as [E|_]; [exfalso; apply Hx; symmetry; exact E|]. unfold canc. lia.
Qed.
