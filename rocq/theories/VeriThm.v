(** * Soundness of the proof rules of VeriPB.v *)
From Coq Require Import List Arith ZArith Lia Bool.
From Verif Require Import Base VeriPB.
Import ListNotations.
Local Open Scope Z_scope.

Section Net.
Context {V : Type} (eqd : forall x y : V, {x = y} + {x <> y}).
Notation t_coef := (t_coef eqd). Notation lb_coef := (lb_coef eqd).
Notation lb_vars := (lb_vars eqd). Notation lb_degree := (lb_degree eqd).

Lemma b2z_range : forall b, 0 <= b2z b <= 1.
Proof. intros []; cbn; lia. Qed.
Lemma b2z_negb : forall b, b2z (negb b) = 1 - b2z b.
Proof. intros []; reflexivity. Qed.

Lemma lb_sum_app : forall (a : V -> bool) t1 t2, lb_sum a (t1 ++ t2) = lb_sum a t1 + lb_sum a t2.
Proof. intros a t1 t2. induction t1 as [|[w l] t1 IH]; cbn [lb_sum app]; [lia|]. rewrite IH. lia. Qed.
Lemma lb_sum_mul : forall (a : V -> bool) k ts,
  lb_sum a (map (fun t => (k * fst t, snd t)) ts) = k * lb_sum a ts.
Proof. intros a k ts. induction ts as [|[w l] ts IH]; cbn [lb_sum map fst snd]; [lia|]. rewrite IH. ring. Qed.
Lemma lb_sum_opp : forall (a : V -> bool) ts,
  lb_sum a (map (fun t => (- fst t, snd t)) ts) = - lb_sum a ts.
Proof. intros a ts. induction ts as [|[w l] ts IH]; cbn [lb_sum map fst snd]; [lia|]. rewrite IH. ring. Qed.

Lemma lb_negate_holds : forall (a : V -> bool) c, lb_holds a (lb_negate c) <-> ~ lb_holds a c.
Proof. intros a c. unfold lb_holds, lb_negate. cbn [lb_bound lb_terms]. rewrite lb_sum_opp. lia. Qed.
Lemma lb_holds_dec : forall (a : V -> bool) c, lb_holds a c \/ ~ lb_holds a c.
Proof. intros a c. unfold lb_holds. lia. Qed.

Lemma t_coef_app : forall t1 t2 v, t_coef (t1 ++ t2) v = t_coef t1 v + t_coef t2 v.
Proof. intros t1 t2 v. induction t1 as [|[w l] t1 IH]; cbn [VeriPB.t_coef app]; [lia|]. rewrite IH. lia. Qed.
Lemma t_const_app : forall t1 t2 : list (Z * ax V), t_const (t1 ++ t2) = t_const t1 + t_const t2.
Proof. intros t1 t2. induction t1 as [|[w l] t1 IH]; cbn [t_const app]; [lia|]. rewrite IH. lia. Qed.
Lemma t_coef_mul : forall k ts v, t_coef (map (fun t => (k * fst t, snd t)) ts) v = k * t_coef ts v.
Proof.
  intros k ts v. induction ts as [|[w l] ts IH]; cbn [VeriPB.t_coef map fst snd]; [lia|]. rewrite IH.
  destruct (eqd (ax_var l) v); [destruct (ax_neg l)|]; ring.
Qed.
Lemma t_const_mul : forall k (ts : list (Z * ax V)),
  t_const (map (fun t => (k * fst t, snd t)) ts) = k * t_const ts.
Proof.
  intros k ts. induction ts as [|[w l] ts IH]; cbn [t_const map fst snd]; [lia|]. rewrite IH.
  destruct (ax_neg l); ring.
Qed.
Lemma t_coef_out : forall ts v, ~ In v (map (fun t => ax_var (snd t)) ts) -> t_coef ts v = 0.
Proof.
  intros ts v. induction ts as [|[w l] ts IH]; cbn [VeriPB.t_coef map snd]; intros H; [reflexivity|].
  destruct (eqd (ax_var l) v) as [e|e]; [exfalso; apply H; left; exact e|].
  rewrite IH; [lia|]. intros X. apply H. right. exact X.
Qed.

Fixpoint vsum (vs : list V) (f : V -> Z) : Z :=
  match vs with [] => 0 | v :: r => f v + vsum r f end.
Lemma vsum_zsum : forall vs f, zsum (map f vs) = vsum vs f.
Proof. intros vs f. induction vs as [|v vs IH]; cbn [map zsum fold_right vsum]; [reflexivity|]. unfold zsum in IH. rewrite IH. reflexivity. Qed.
Lemma vsum_ext : forall vs f g, (forall v, In v vs -> f v = g v) -> vsum vs f = vsum vs g.
Proof.
  intros vs f g. induction vs as [|v vs IH]; intros H; cbn [vsum]; [reflexivity|].
  rewrite (H v) by (left; reflexivity). rewrite IH; [reflexivity|]. intros; apply H; right; assumption.
Qed.
Lemma vsum_add : forall vs f g, vsum vs (fun v => f v + g v) = vsum vs f + vsum vs g.
Proof. intros vs f g. induction vs as [|v vs IH]; cbn [vsum]; [lia|]. rewrite IH. lia. Qed.
Lemma vsum_mul : forall vs k f, vsum vs (fun v => k * f v) = k * vsum vs f.
Proof. intros vs k f. induction vs as [|v vs IH]; cbn [vsum]; [lia|]. rewrite IH. lia. Qed.
Lemma vsum_0 : forall vs f, (forall v, In v vs -> f v = 0) -> vsum vs f = 0.
Proof.
  intros vs f. induction vs as [|v vs IH]; intros H; cbn [vsum]; [reflexivity|].
  rewrite (H v) by (left; reflexivity). rewrite IH; [reflexivity|]. intros; apply H; right; assumption.
Qed.
Lemma vsum_le : forall vs f g, (forall v, In v vs -> f v <= g v) -> vsum vs f <= vsum vs g.
Proof.
  intros vs f g. induction vs as [|v vs IH]; intros H; cbn [vsum]; [lia|].
  pose proof (H v (or_introl eq_refl)) as H1.
  assert (H2 : vsum vs f <= vsum vs g) by (apply IH; intros; apply H; right; assumption). lia.
Qed.
(** only one variable contributes *)
Lemma vsum_single : forall vs x f, NoDup vs -> In x vs -> (forall v, In v vs -> v <> x -> f v = 0) ->
  vsum vs f = f x.
Proof.
  intros vs x f. induction vs as [|v vs IH]; intros Hn Hi H; [destruct Hi|].
  cbn [vsum]. inversion Hn as [|v' vs' Hv Hn']; subst. destruct Hi as [->|Hi].
  - rewrite (vsum_0 vs); [lia|]. intros y Hy. apply H; [right; exact Hy|]. intros ->. contradiction.
  - rewrite (H v) by (try (left; reflexivity); intros ->; contradiction).
    rewrite IH; [lia|exact Hn'|exact Hi|]. intros; apply H; [right; assumption|assumption].
Qed.
(** the sum does not depend on the list of variables, as long as it covers the support *)
Lemma vsum_support : forall vs ws f, NoDup vs -> NoDup ws ->
  (forall v, f v <> 0 -> In v vs) -> (forall v, f v <> 0 -> In v ws) -> vsum vs f = vsum ws f.
Proof.
  intros vs. induction vs as [|v vs IH]; intros ws f Hv Hw H1 H2.
  - cbn [vsum]. symmetry. apply vsum_0. intros x Hx. destruct (Z.eq_dec (f x) 0) as [e|e]; [exact e|]. destruct (H1 x e).
  - inversion Hv as [|v' vs' Hnv Hvs]; subst. cbn [vsum].
    destruct (in_dec eqd v ws) as [Hi|Hi].
    + apply in_split in Hi. destruct Hi as (w1 & w2 & ->).
      assert (E : vsum (w1 ++ v :: w2) f = f v + vsum (w1 ++ w2) f).
      { clear. induction w1 as [|x w1 IHw]; cbn [vsum app]; [reflexivity|]. rewrite IHw. lia. }
      rewrite E. f_equal.
      set (g := fun x => if eqd x v then 0 else f x).
      assert (Ev : vsum vs f = vsum vs g).
      { apply vsum_ext. intros x Hx. unfold g. destruct (eqd x v) as [->|]; [contradiction|reflexivity]. }
      apply NoDup_remove in Hw. destruct Hw as [Hw Hnw].
      assert (Ew : vsum (w1 ++ w2) f = vsum (w1 ++ w2) g).
      { apply vsum_ext. intros x Hx. unfold g. destruct (eqd x v) as [->|]; [contradiction|reflexivity]. }
      rewrite Ev, Ew. apply IH; [exact Hvs|exact Hw| |].
      * intros x Hx. unfold g in Hx. destruct (eqd x v) as [->|n]; [congruence|].
        destruct (H1 x Hx) as [<-|Y]; [congruence|exact Y].
      * intros x Hx. unfold g in Hx. destruct (eqd x v) as [->|n]; [congruence|].
        pose proof (H2 x Hx) as Y. apply in_app_or in Y. apply in_or_app.
        destruct Y as [Y|[<-|Y]]; [left; exact Y|congruence|right; exact Y].
    + assert (f v = 0) as ->. { destruct (Z.eq_dec (f v) 0) as [e|e]; [exact e|]. exfalso. apply Hi. apply H2. exact e. }
      rewrite Z.add_0_l. apply IH; [exact Hvs|exact Hw| |exact H2].
      intros x Hx. destruct (H1 x Hx) as [<-|Y]; [|exact Y]. exfalso. apply Hi. apply H2. exact Hx.
Qed.

Lemma lb_vars_nodup : forall c, NoDup (lb_vars c).
Proof. intros c. apply NoDup_nodup. Qed.
Lemma lb_vars_support : forall c v, lb_coef c v <> 0 -> In v (lb_vars c).
Proof.
  intros c v H. unfold VeriPB.lb_vars. apply nodup_In.
  destruct (in_dec eqd v (map (fun t => ax_var (snd t)) (lb_terms c))) as [Hi|Hi]; [exact Hi|].
  exfalso. apply H. apply t_coef_out. exact Hi.
Qed.
Lemma in_lb_vars : forall c v, In v (lb_vars c) <-> In v (map (fun t => ax_var (snd t)) (lb_terms c)).
Proof. intros c v. unfold VeriPB.lb_vars. apply nodup_In. Qed.

(** evaluation through the net coefficients *)
Lemma lb_sum_net : forall (a : V -> bool) ts vs, NoDup vs -> incl (map (fun t => ax_var (snd t)) ts) vs ->
  lb_sum a ts = vsum vs (fun v => t_coef ts v * b2z (a v)) + t_const ts.
Proof.
  intros a ts vs Hn. induction ts as [|[w l] ts IH]; intros Hi.
  - cbn. rewrite vsum_0; [reflexivity|]. intros; cbn; lia.
  - cbn [lb_sum t_const]. rewrite IH; [|intros x Hx; apply Hi; right; exact Hx].
    cbn [VeriPB.t_coef].
    set (d := fun v => (if eqd (ax_var l) v then if ax_neg l then - w else w else 0)).
    change (w * b2z (ax_true a l) + (vsum vs (fun v => t_coef ts v * b2z (a v)) + t_const ts) =
            vsum vs (fun v => (d v + t_coef ts v) * b2z (a v)) + ((if ax_neg l then w else 0) + t_const ts)).
    rewrite (vsum_ext vs (fun v => (d v + t_coef ts v) * b2z (a v))
               (fun v => d v * b2z (a v) + t_coef ts v * b2z (a v))) by (intros; ring).
    rewrite vsum_add.
    rewrite (vsum_single vs (ax_var l) (fun v => d v * b2z (a v)) Hn).
    + unfold d. destruct (eqd (ax_var l) (ax_var l)) as [_|n]; [|congruence].
      unfold ax_true. destruct (ax_neg l), (a (ax_var l)); cbn [xorb b2z]; lia.
    + apply Hi. left. reflexivity.
    + intros v _ Hv. unfold d. destruct (eqd (ax_var l) v) as [e|_]; [congruence|lia].
Qed.

Lemma lb_holds_net : forall (a : V -> bool) c vs, NoDup vs -> incl (lb_vars c) vs ->
  (lb_holds a c <-> lb_rhs c <= vsum vs (fun v => lb_coef c v * b2z (a v))).
Proof.
  intros a c vs Hn Hi. unfold lb_holds, lb_rhs.
  rewrite (lb_sum_net a (lb_terms c) vs Hn).
  - unfold VeriPB.lb_coef. lia.
  - intros x Hx. apply Hi. apply in_lb_vars. exact Hx.
Qed.

Lemma nodup_both : forall c d : lbc V, exists vs, NoDup vs /\ incl (lb_vars c) vs /\ incl (lb_vars d) vs.
Proof.
  intros c d. exists (nodup eqd (lb_vars c ++ lb_vars d)). split; [apply NoDup_nodup|].
  split; intros x Hx; apply nodup_In, in_or_app; [left|right]; exact Hx.
Qed.
Lemma lb_same_holds : forall c d, lb_same eqd c d -> forall a, lb_holds a c <-> lb_holds a d.
Proof.
  intros c d [H1 H2] a. destruct (nodup_both c d) as (vs & Hn & Hc & Hd).
  rewrite (lb_holds_net a c vs Hn Hc), (lb_holds_net a d vs Hn Hd). rewrite H2.
  rewrite (vsum_ext vs (fun v => lb_coef c v * b2z (a v)) (fun v => lb_coef d v * b2z (a v))); [tauto|].
  intros v _. rewrite H1. reflexivity.
Qed.

Lemma lb_degree_any : forall c vs, NoDup vs -> incl (lb_vars c) vs ->
  lb_degree c = lb_rhs c + vsum vs (fun v => Z.max 0 (- lb_coef c v)).
Proof.
  intros c vs Hn Hi. unfold VeriPB.lb_degree. rewrite vsum_zsum. f_equal.
  apply vsum_support; [apply lb_vars_nodup|exact Hn| |].
  - intros v H. apply lb_vars_support. intros e. rewrite e in H. apply H. reflexivity.
  - intros v H. apply Hi. apply lb_vars_support. intros e. rewrite e in H. apply H. reflexivity.
Qed.
Lemma lb_same_degree : forall c d, lb_same eqd c d -> lb_degree c = lb_degree d.
Proof.
  intros c d [H1 H2]. destruct (nodup_both c d) as (vs & Hn & Hc & Hd).
  rewrite (lb_degree_any c vs Hn Hc), (lb_degree_any d vs Hn Hd). rewrite H2. f_equal.
  apply vsum_ext. intros v _. rewrite H1. reflexivity.
Qed.

(** evaluation in the form with non-negative coefficients *)
Definition lit_val (z : Z) (b : bool) : Z := if 0 <=? z then b2z b else 1 - b2z b.
Lemma lb_holds_deg : forall (a : V -> bool) c vs, NoDup vs -> incl (lb_vars c) vs ->
  (lb_holds a c <-> lb_degree c <= vsum vs (fun v => Z.abs (lb_coef c v) * lit_val (lb_coef c v) (a v))).
Proof.
  intros a c vs Hn Hi. rewrite (lb_holds_net a c vs Hn Hi), (lb_degree_any c vs Hn Hi).
  assert (E : vsum vs (fun v => Z.abs (lb_coef c v) * lit_val (lb_coef c v) (a v)) =
              vsum vs (fun v => lb_coef c v * b2z (a v)) + vsum vs (fun v => Z.max 0 (- lb_coef c v))).
  { rewrite <- vsum_add. apply vsum_ext. intros v _. unfold lit_val.
    destruct (Z.leb_spec 0 (lb_coef c v)).
    - rewrite Z.abs_eq by lia. rewrite Z.max_l by lia. lia.
    - rewrite Z.abs_neq by lia. rewrite Z.max_r by lia. ring. }
  rewrite E. lia.
Qed.

(** [lb_of] *)
Lemma lb_of_coef : forall vs f deg v, NoDup vs -> lb_coef (lb_of vs f deg) v = if in_dec eqd v vs then f v else 0.
Proof.
  intros vs f deg v Hn. unfold VeriPB.lb_coef, lb_of. cbn [lb_terms].
  induction vs as [|x vs IH]; [reflexivity|]. inversion Hn as [|x' vs' Hx Hn']; subst.
  cbn [map VeriPB.t_coef]. specialize (IH Hn').
  destruct (0 <=? f x) eqn:E; cbn [VeriPB.t_coef ax_var ax_neg]; rewrite IH.
  - destruct (eqd x v) as [->|n].
    + destruct (in_dec eqd v (v :: vs)) as [_|n]; [|exfalso; apply n; left; reflexivity].
      destruct (in_dec eqd v vs) as [i|_]; [contradiction|lia].
    + destruct (in_dec eqd v vs) as [i|i], (in_dec eqd v (x :: vs)) as [j|j]; try lia.
      * exfalso. apply j. right. exact i.
      * destruct j as [j|j]; [congruence|contradiction].
  - destruct (eqd x v) as [->|n].
    + destruct (in_dec eqd v (v :: vs)) as [_|n]; [|exfalso; apply n; left; reflexivity].
      destruct (in_dec eqd v vs) as [i|_]; [contradiction|lia].
    + destruct (in_dec eqd v vs) as [i|i], (in_dec eqd v (x :: vs)) as [j|j]; try lia.
      * exfalso. apply j. right. exact i.
      * destruct j as [j|j]; [congruence|contradiction].
Qed.
Lemma lb_of_const : forall vs f deg, t_const (lb_terms (lb_of vs f deg)) = vsum vs (fun v => Z.max 0 (- f v)).
Proof.
  intros vs f deg. unfold lb_of. cbn [lb_terms]. induction vs as [|x vs IH]; [reflexivity|].
  cbn [map t_const vsum]. destruct (Z.leb_spec 0 (f x)) as [E|E]; cbn [t_const ax_neg]; rewrite IH.
  - rewrite Z.max_l by lia. reflexivity.
  - rewrite Z.max_r by lia. reflexivity.
Qed.
Lemma lb_of_vars : forall vs f deg, NoDup vs -> forall v, In v (lb_vars (lb_of vs f deg)) <-> In v vs.
Proof.
  intros vs f deg Hn v. rewrite in_lb_vars. unfold lb_of. cbn [lb_terms]. rewrite map_map.
  rewrite (map_ext _ (fun x => x)); [rewrite map_id; tauto|].
  intros x. destruct (0 <=? f x); reflexivity.
Qed.
Lemma lb_of_degree : forall vs f deg, NoDup vs -> lb_degree (lb_of vs f deg) = deg.
Proof.
  intros vs f deg Hn. rewrite (lb_degree_any _ vs Hn).
  - unfold lb_rhs. rewrite lb_of_const. cbn [lb_of lb_bound].
    rewrite (vsum_ext vs (fun v => Z.max 0 (- lb_coef (lb_of vs f deg) v)) (fun v => Z.max 0 (- f v))); [lia|].
    intros v Hv. rewrite lb_of_coef by exact Hn. destruct (in_dec eqd v vs); [reflexivity|contradiction].
  - intros v Hv. apply (lb_of_vars vs f deg Hn). exact Hv.
Qed.
Lemma lb_of_holds : forall (a : V -> bool) vs f deg, NoDup vs ->
  (lb_holds a (lb_of vs f deg) <-> deg <= vsum vs (fun v => Z.abs (f v) * lit_val (f v) (a v))).
Proof.
  intros a vs f deg Hn. rewrite (lb_holds_deg a (lb_of vs f deg) vs Hn).
  - rewrite lb_of_degree by exact Hn.
    rewrite (vsum_ext vs (fun v => Z.abs (lb_coef (lb_of vs f deg) v) * lit_val (lb_coef (lb_of vs f deg) v) (a v))
               (fun v => Z.abs (f v) * lit_val (f v) (a v))); [tauto|].
    intros v Hv. rewrite lb_of_coef by exact Hn. destruct (in_dec eqd v vs); [reflexivity|contradiction].
  - intros v Hv. apply (lb_of_vars vs f deg Hn). exact Hv.
Qed.

(** ** Soundness of the operations *)
Lemma lb_add_sound : forall (a : V -> bool) c d, lb_holds a c -> lb_holds a d -> lb_holds a (lb_add c d).
Proof. intros a c d. unfold lb_holds, lb_add. cbn [lb_bound lb_terms]. rewrite lb_sum_app. lia. Qed.
Lemma lb_mul_sound : forall (a : V -> bool) k c, 0 <= k -> lb_holds a c -> lb_holds a (lb_mul k c).
Proof.
  intros a k c Hk. unfold lb_holds, lb_mul. cbn [lb_bound lb_terms]. rewrite lb_sum_mul.
  intros H. apply Z.mul_le_mono_nonneg_l; assumption.
Qed.
Lemma lb_add_coef : forall c d v, lb_coef (lb_add c d) v = lb_coef c v + lb_coef d v.
Proof. intros c d v. apply t_coef_app. Qed.
Lemma lb_add_rhs : forall c d : lbc V, lb_rhs (lb_add c d) = lb_rhs c + lb_rhs d.
Proof. intros c d. unfold lb_rhs, lb_add. cbn [lb_bound lb_terms]. rewrite t_const_app. lia. Qed.
Lemma lb_mul_coef : forall k c v, lb_coef (lb_mul k c) v = k * lb_coef c v.
Proof. intros k c v. apply t_coef_mul. Qed.
Lemma lb_mul_rhs : forall k (c : lbc V), lb_rhs (lb_mul k c) = k * lb_rhs c.
Proof. intros k c. unfold lb_rhs, lb_mul. cbn [lb_bound lb_terms]. rewrite t_const_mul. ring. Qed.

Lemma cdiv_spec : forall x k, 0 < k -> k * (cdiv x k - 1) < x <= k * cdiv x k.
Proof.
  intros x k Hk. unfold cdiv. pose proof (Z.div_mod (- x) k ltac:(lia)) as E.
  pose proof (Z.mod_pos_bound (- x) k Hk) as B. nia.
Qed.
Lemma cdiv_le : forall x y k, 0 < k -> x <= k * y -> cdiv x k <= y.
Proof. intros x y k Hk H. pose proof (cdiv_spec x k Hk). nia. Qed.
Lemma cdiv_unique : forall x y k, 0 < k -> k * (y - 1) < x <= k * y -> cdiv x k = y.
Proof. intros x y k Hk H. pose proof (cdiv_spec x k Hk). nia. Qed.
Lemma cdiv_0 : forall k, 0 < k -> cdiv 0 k = 0.
Proof. intros k Hk. apply cdiv_unique; lia. Qed.
Lemma cdiv_nonneg : forall x k, 0 < k -> 0 <= x -> 0 <= cdiv x k.
Proof. intros x k Hk Hx. pose proof (cdiv_spec x k Hk). nia. Qed.

Definition div_coef (k z : Z) : Z := if 0 <=? z then cdiv z k else - cdiv (- z) k.
Lemma div_coef_abs : forall k z, 0 < k -> Z.abs (div_coef k z) = cdiv (Z.abs z) k.
Proof.
  intros k z Hk. unfold div_coef. destruct (Z.leb_spec 0 z).
  - rewrite (Z.abs_eq z) by lia. apply Z.abs_eq. apply cdiv_nonneg; lia.
  - rewrite (Z.abs_neq z) by lia. rewrite Z.abs_opp. apply Z.abs_eq. apply cdiv_nonneg; lia.
Qed.
Lemma lit_val_range : forall z b, 0 <= lit_val z b <= 1.
Proof. intros z b. unfold lit_val. destruct (0 <=? z), b; cbn; lia. Qed.
Lemma div_coef_sign : forall k z b, 0 < k -> z <> 0 -> lit_val (div_coef k z) b = lit_val z b.
Proof.
  intros k z b Hk Hz. unfold lit_val, div_coef. destruct (Z.leb_spec 0 z).
  - pose proof (cdiv_nonneg z k Hk H). destruct (Z.leb_spec 0 (cdiv z k)); [reflexivity|lia].
  - pose proof (cdiv_spec (- z) k Hk). destruct (Z.leb_spec 0 (- cdiv (- z) k)); [|reflexivity]. nia.
Qed.
Lemma vsum_abs0 : forall vs (f g : V -> Z), (forall v, In v vs -> f v = 0) -> vsum vs (fun v => f v * g v) = 0.
Proof. intros vs f g H. apply vsum_0. intros v Hv. rewrite H by exact Hv. reflexivity. Qed.

Lemma lb_div_sound : forall (a : V -> bool) k c, 0 < k -> lb_holds a c -> lb_holds a (lb_div eqd k c).
Proof.
  intros a k c Hk H. unfold lb_div.
  change (fun v => if 0 <=? lb_coef c v then cdiv (lb_coef c v) k else - cdiv (- lb_coef c v) k)
    with (fun v => div_coef k (lb_coef c v)).
  apply lb_of_holds; [apply lb_vars_nodup|].
  apply (lb_holds_deg a c (lb_vars c) (lb_vars_nodup c) (incl_refl _)) in H.
  apply cdiv_le; [exact Hk|]. etransitivity; [exact H|].
  rewrite <- vsum_mul. apply vsum_le. intros v _. rewrite div_coef_abs by exact Hk.
  destruct (Z.eq_dec (lb_coef c v) 0) as [e|e].
  - rewrite e. cbn [Z.abs]. rewrite cdiv_0 by exact Hk. lia.
  - rewrite div_coef_sign by assumption. pose proof (lit_val_range (lb_coef c v) (a v)) as R.
    pose proof (cdiv_spec (Z.abs (lb_coef c v)) k Hk) as B. nia.
Qed.
Lemma lb_div_coef : forall k c v, 0 < k -> lb_coef (lb_div eqd k c) v = div_coef k (lb_coef c v).
Proof.
  intros k c v Hk. unfold lb_div. rewrite lb_of_coef by apply lb_vars_nodup.
  fold (div_coef k (lb_coef c v)).
  destruct (in_dec eqd v (lb_vars c)) as [_|n]; [reflexivity|].
  destruct (Z.eq_dec (lb_coef c v) 0) as [e|e].
  - rewrite e. unfold div_coef. cbn [Z.leb Z.compare]. rewrite cdiv_0 by exact Hk. reflexivity.
  - exfalso. apply n. apply lb_vars_support. exact e.
Qed.
Lemma lb_div_degree : forall k c, lb_degree (lb_div eqd k c) = cdiv (lb_degree c) k.
Proof. intros k c. unfold lb_div. apply lb_of_degree. apply lb_vars_nodup. Qed.

Definition sat_coef (d z : Z) : Z := if 0 <=? z then Z.min z d else - Z.min (- z) d.
Lemma lb_sat_coef : forall c v, lb_coef (lb_sat eqd c) v = sat_coef (Z.max 0 (lb_degree c)) (lb_coef c v).
Proof.
  intros c v. unfold lb_sat. rewrite lb_of_coef by apply lb_vars_nodup.
  fold (sat_coef (Z.max 0 (lb_degree c)) (lb_coef c v)).
  destruct (in_dec eqd v (lb_vars c)) as [_|n]; [reflexivity|].
  destruct (Z.eq_dec (lb_coef c v) 0) as [e|e].
  - rewrite e. unfold sat_coef. cbn [Z.leb Z.compare]. lia.
  - exfalso. apply n. apply lb_vars_support. exact e.
Qed.
Lemma lb_sat_degree : forall c, lb_degree (lb_sat eqd c) = lb_degree c.
Proof. intros c. unfold lb_sat. apply lb_of_degree. apply lb_vars_nodup. Qed.
Lemma vsum_nonneg : forall vs f, (forall v, In v vs -> 0 <= f v) -> 0 <= vsum vs f.
Proof. intros vs f H. etransitivity; [|apply vsum_le with (f := fun _ => 0); exact H]. rewrite vsum_0; [lia|reflexivity]. Qed.
Lemma vsum_ge_one : forall vs f x, (forall v, In v vs -> 0 <= f v) -> In x vs -> f x <= vsum vs f.
Proof.
  intros vs f x. induction vs as [|v vs IH]; intros H Hi; [destruct Hi|]. cbn [vsum].
  assert (0 <= vsum vs f) by (apply vsum_nonneg; intros; apply H; right; assumption).
  destruct Hi as [->|Hi]; [lia|].
  pose proof (H v (or_introl eq_refl)). assert (f x <= vsum vs f) by (apply IH; [intros; apply H; right; assumption|exact Hi]). lia.
Qed.
Lemma lb_sat_sound : forall (a : V -> bool) c, lb_holds a c -> lb_holds a (lb_sat eqd c).
Proof.
  intros a c H. unfold lb_sat. set (d := Z.max 0 (lb_degree c)).
  change (fun v => if 0 <=? lb_coef c v then Z.min (lb_coef c v) d else - Z.min (- lb_coef c v) d)
    with (fun v => sat_coef d (lb_coef c v)).
  apply lb_of_holds; [apply lb_vars_nodup|].
  apply (lb_holds_deg a c (lb_vars c) (lb_vars_nodup c) (incl_refl _)) in H.
  assert (Hab : forall z, Z.abs (sat_coef d z) = Z.min (Z.abs z) d).
  { intros z. unfold sat_coef. destruct (Z.leb_spec 0 z); lia. }
  assert (Hlv : forall z b, z <> 0 -> 0 < d -> lit_val (sat_coef d z) b = lit_val z b).
  { intros z b Hz Hd. unfold lit_val, sat_coef. destruct (Z.leb_spec 0 z).
    - destruct (Z.leb_spec 0 (Z.min z d)); [reflexivity|lia].
    - destruct (Z.leb_spec 0 (- Z.min (- z) d)); [lia|reflexivity]. }
  assert (Hnn : forall v, In v (lb_vars c) -> 0 <= Z.abs (sat_coef d (lb_coef c v)) * lit_val (sat_coef d (lb_coef c v)) (a v)).
  { intros v _. pose proof (lit_val_range (sat_coef d (lb_coef c v)) (a v)). nia. }
  destruct (Z.le_gt_cases (lb_degree c) 0) as [Hd|Hd].
  { etransitivity; [exact Hd|]. apply vsum_nonneg. exact Hnn. }
  (* either some satisfied literal has a coefficient >= degree, or nothing is clamped *)
  destruct (Exists_dec (fun v => lb_degree c <= Z.abs (lb_coef c v) /\ lit_val (lb_coef c v) (a v) = 1) (lb_vars c)) as [Hx|Hx].
  { intros v. destruct (Z_le_dec (lb_degree c) (Z.abs (lb_coef c v))) as [l|l].
    - destruct (Z.eq_dec (lit_val (lb_coef c v) (a v)) 1) as [e|e]; [left|right]; tauto.
    - right. tauto. }
  - apply Exists_exists in Hx. destruct Hx as (v & Hv & Hge & H1).
    etransitivity; [|apply vsum_ge_one with (x := v); [exact Hnn|exact Hv]].
    cbn beta. rewrite Hab. rewrite Hlv; [rewrite H1; unfold d; lia| |unfold d; lia].
    intros e. rewrite e in Hge. cbn in Hge. lia.
  - etransitivity; [exact H|]. apply vsum_le. intros v Hv. rewrite Hab.
    destruct (Z.eq_dec (lb_coef c v) 0) as [e|e]; [rewrite e; cbn; lia|].
    rewrite Hlv; [|exact e|unfold d; lia].
    destruct (Z_le_dec (lb_degree c) (Z.abs (lb_coef c v))) as [l|l].
    + assert (lit_val (lb_coef c v) (a v) <> 1).
      { intros e1. apply Hx. apply Exists_exists. exists v. tauto. }
      pose proof (lit_val_range (lb_coef c v) (a v)). nia.
    + rewrite Z.min_l by (unfold d; lia). lia.
Qed.

(** ** Reverse unit propagation *)
Lemma up_sound : forall (cs : list (lbc V)) r, up cs r -> forall a, ax_all a r -> (forall c, In c cs -> lb_holds a c) -> False.
Proof.
  intros cs r H. induction H as [r c Hc Hx|r c l Hc Hp H IH]; intros a Ha Hcs.
  - exact (Hx a Ha (Hcs c Hc)).
  - apply (IH a); [|exact Hcs]. intros x [<-|Hx]; [|exact (Ha x Hx)]. apply (Hp a Ha (Hcs c Hc)).
Qed.
Lemma rup_sound : forall (cs : list (lbc V)) c, rup cs c -> forall a, (forall d, In d cs -> lb_holds a d) -> lb_holds a c.
Proof.
  intros cs c H a Ha. destruct (lb_holds_dec a c) as [Hc|Hc]; [exact Hc|]. exfalso.
  apply (up_sound _ _ H a); [intros l []|]. intros d [<-|Hd]; [apply lb_negate_holds; exact Hc|exact (Ha d Hd)].
Qed.
Lemma up_incl : forall (cs ds : list (lbc V)) r, incl cs ds -> up cs r -> up ds r.
Proof.
  intros cs ds r Hi H. induction H as [r c Hc Hx|r c l Hc Hp H IH].
  - apply up_conflict with c; [apply Hi; exact Hc|exact Hx].
  - apply up_step with c l; [apply Hi; exact Hc|exact Hp|exact IH].
Qed.
Lemma up_to_sound : forall (cs : list (lbc V)) r full, up_to cs r full -> forall a, ax_all a r -> (forall c, In c cs -> lb_holds a c) -> ax_all a full.
Proof.
  intros cs r full H. induction H as [r full He|r full c l Hc Hp H IH]; intros a Ha Hcs.
  - intros l Hl. apply Ha. apply He. exact Hl.
  - apply IH; [|exact Hcs]. intros x [<-|Hx]; [|exact (Ha x Hx)]. apply (Hp a Ha (Hcs c Hc)).
Qed.
Lemma up_to_incl : forall (cs : list (lbc V)) r full, up_to cs r full -> incl r full.
Proof.
  intros cs r full H. induction H as [r full He|r full c l Hc Hp H IH].
  - intros l Hl. apply He. exact Hl.
  - intros x Hx. apply IH. right. exact Hx.
Qed.

(** ** Substitution *)
Lemma su_terms_sum : forall (a : V -> bool) w ts ts' k, su_terms eqd w ts = (ts', k) ->
  lb_sum (su_asg eqd w a) ts = lb_sum a ts' + k.
Proof.
  intros a w ts. induction ts as [|[z l] ts IH]; intros ts' k E; cbn [su_terms] in E.
  - injection E as <- <-. reflexivity.
  - destruct (su_terms eqd w ts) as [t0 k0] eqn:E0. cbn [lb_sum]. rewrite (IH t0 k0 eq_refl).
    unfold ax_true at 1, su_asg at 1.
    destruct (su_get eqd w (ax_var l)) as [b|]; injection E as <- <-.
    + lia.
    + cbn [lb_sum]. unfold ax_true. lia.
Qed.
Lemma lb_subst_holds : forall (a : V -> bool) w c, lb_holds a (lb_subst eqd w c) <-> lb_holds (su_asg eqd w a) c.
Proof.
  intros a w c. unfold lb_subst. destruct (su_terms eqd w (lb_terms c)) as [ts k] eqn:E.
  unfold lb_holds. cbn [lb_bound lb_terms]. rewrite (su_terms_sum a w (lb_terms c) ts k E). lia.
Qed.
Lemma lb_subst_id : forall w c, (forall v, In v (lb_vars c) -> su_get eqd w v = None) -> lb_subst eqd w c = c.
Proof.
  intros w c H. unfold lb_subst.
  assert (E : su_terms eqd w (lb_terms c) = (lb_terms c, 0)).
  { assert (H' : forall t, In t (lb_terms c) -> su_get eqd w (ax_var (snd t)) = None).
    { intros t Ht. apply H. apply in_lb_vars. apply in_map with (f := fun t => ax_var (snd t)). exact Ht. }
    clear H. induction (lb_terms c) as [|[z l] ts IH]; [reflexivity|]. cbn [su_terms].
    rewrite IH by (intros t Ht; apply H'; right; exact Ht).
    pose proof (H' (z, l) (or_introl eq_refl)) as X. cbn [snd] in X. rewrite X. reflexivity. }
  rewrite E. rewrite Z.sub_0_r. destruct c; reflexivity.
Qed.

(** ** Clauses *)
Lemma lb_clause_holds : forall (a : V -> bool) ls, lb_holds a (lb_clause ls) <-> exists l, In l ls /\ ax_true a l = true.
Proof.
  intros a ls. unfold lb_holds, lb_clause. cbn [lb_bound lb_terms].
  assert (E : forall ls, 0 <= lb_sum a (map (fun l => (1, l)) ls) /\
    (1 <= lb_sum a (map (fun l => (1, l)) ls) <-> exists l, In l ls /\ ax_true a l = true)).
  { clear ls. intros ls. induction ls as [|l ls [IH1 IH2]].
    - cbn. split; [lia|]. split; [lia|]. intros (l & [] & _).
    - cbn [map lb_sum]. destruct (ax_true a l) eqn:E; cbn [b2z].
      + split; [lia|]. split; [|lia]. intros _. exists l. split; [left; reflexivity|exact E].
      + split; [lia|]. rewrite Z.mul_0_r, Z.add_0_l. rewrite IH2. split.
        * intros (x & Hx & Hx'). exists x. split; [right; exact Hx|exact Hx'].
        * intros (x & [<-|Hx] & Hx'); [congruence|]. exists x. split; assumption. }
  apply E.
Qed.
Lemma ax_not_true : forall (a : V -> bool) l, ax_true a (ax_not l) = negb (ax_true a l).
Proof. intros a [v n]. unfold ax_true, ax_not. cbn. destruct n, (a v); reflexivity. Qed.
Lemma ax_not_not : forall l : ax V, ax_not (ax_not l) = l.
Proof. intros [v n]. unfold ax_not. cbn. rewrite negb_involutive. reflexivity. Qed.
Lemma clause_not_all : forall (a : V -> bool) ls, ~ lb_holds a (lb_clause (map ax_not ls)) <-> ax_all a ls.
Proof.
  intros a ls. rewrite lb_clause_holds. split.
  - intros H l Hl. destruct (ax_true a l) eqn:E; [reflexivity|]. exfalso. apply H.
    exists (ax_not l). split; [apply in_map; exact Hl|]. rewrite ax_not_true, E. reflexivity.
  - intros H (l & Hl & Ht). apply in_map_iff in Hl. destruct Hl as (x & <- & Hx).
    rewrite ax_not_true, (H x Hx) in Ht. discriminate.
Qed.
Lemma contradictory_sound : forall (a : V -> bool) c, contradictory c -> ~ lb_holds a c.
Proof. intros a c H. apply H. intros l []. Qed.
(** a constraint without net coefficients and positive right-hand side is contradictory *)
Lemma contradictory_net : forall c, (forall v, lb_coef c v = 0) -> 0 < lb_rhs c -> contradictory c.
Proof.
  intros c H0 Hr a _ H. apply (lb_holds_net a c (lb_vars c) (lb_vars_nodup c) (incl_refl _)) in H.
  rewrite vsum_0 in H; [lia|]. intros v _. rewrite H0. lia.
Qed.
End Net.

(** ** Proof lines *)
Lemma pol_sound : forall {V} (eqd : forall x y : V, {x = y} + {x <> y}) get p c (a : V -> bool),
  (forall i d, get i = Some d -> lb_holds a d) -> pol_eval eqd get p = Some c -> lb_holds a c.
Proof.
  intros V eqd get p. induction p as [i|p IHp q IHq|p IH k|p IH k|p IH]; intros c a Hg E; cbn [pol_eval] in E.
  - exact (Hg i c E).
  - destruct (pol_eval eqd get p) as [c1|]; [|discriminate]. destruct (pol_eval eqd get q) as [c2|]; [|discriminate].
    injection E as <-. apply lb_add_sound; [apply IHp|apply IHq]; auto.
  - destruct (Z.leb_spec 0 k) as [Hk|_]; [|discriminate].
    destruct (pol_eval eqd get p) as [c1|]; [|discriminate]. injection E as <-. apply lb_mul_sound; auto.
  - destruct (Z.ltb_spec 0 k) as [Hk|_]; [|discriminate].
    destruct (pol_eval eqd get p) as [c1|]; [|discriminate]. injection E as <-. apply lb_div_sound; auto.
  - destruct (pol_eval eqd get p) as [c1|]; [|discriminate]. injection E as <-. apply lb_sat_sound; auto.
Qed.

Definition db_holds (a : pv -> bool) (es : list entry) : Prop := forall e, In e es -> lb_holds a (snd e).
Lemma e_get_in : forall es i c, e_get es i = Some c -> In (i, c) es.
Proof.
  intros es i c. induction es as [|[j d] es IH]; cbn [e_get]; [discriminate|].
  destruct (Nat.eqb_spec j i) as [->|_]; intros E; [injection E as ->; left; reflexivity|right; apply IH; exact E].
Qed.
Lemma id_get_in : forall es next i c, id_get es next i = Some c -> exists j, In (j, c) es.
Proof.
  intros es next [n|k] c E; cbn [id_get] in E.
  - exists n. apply e_get_in. exact E.
  - destruct (k <=? next)%nat; [|discriminate]. exists (next - k)%nat. apply e_get_in. exact E.
Qed.
Lemma id_get_holds : forall a es next i c, db_holds a es -> id_get es next i = Some c -> lb_holds a c.
Proof. intros a es next i c H E. destruct (id_get_in _ _ _ _ E) as (j & Hj). exact (H _ Hj). Qed.
Lemma opt_all_in : forall {A} (l : list (option A)) xs, opt_all l = Some xs -> forall x, In x xs -> In (Some x) l.
Proof.
  intros A l. induction l as [|[y|] l IH]; intros xs E x Hx; cbn [opt_all] in E; [|destruct (opt_all l) as [ys|]; [|discriminate]|discriminate].
  - injection E as <-. destruct Hx.
  - injection E as <-. destruct Hx as [->|Hx]; [left; reflexivity|right; exact (IH ys eq_refl x Hx)].
Qed.
Lemma hints_hold : forall a es next hs cs, db_holds a es -> opt_all (map (id_get es next) hs) = Some cs ->
  forall c, In c cs -> lb_holds a c.
Proof.
  intros a es next hs cs H E c Hc. pose proof (opt_all_in _ _ E c Hc) as Hi. apply in_map_iff in Hi.
  destruct Hi as (i & Hi & _). exact (id_get_holds a es next i c H Hi).
Qed.

Lemma sub_sound : forall ds es next, sub_ok es next ds -> forall a, db_holds a es -> False.
Proof.
  intros ds. induction ds as [|[p|c hs] ds IH]; intros es next H a Ha; cbn [sub_ok] in H.
  - destruct H as (c & E & Hc). apply (contradictory_sound a c Hc). exact (id_get_holds a es next _ c Ha E).
  - destruct H as (c & E & Hr). apply (IH _ _ Hr a). intros e [<-|He]; [|exact (Ha e He)].
    cbn [snd]. eapply (pol_sound pv_eqd); [|exact E]. intros i d. apply id_get_holds. exact Ha.
  - destruct H as (cs & E & Hrup & Hr). apply (IH _ _ Hr a). intros e [<-|He]; [|exact (Ha e He)].
    cbn [snd]. apply (rup_sound cs c Hrup). apply (hints_hold a es next hs cs Ha E).
Qed.
Lemma goal_sound : forall es next sub g, goal_ok es next sub g -> forall a, db_holds a es -> lb_holds a g.
Proof.
  intros es next [ds|] g H a Ha; cbn [goal_ok] in H.
  - destruct (lb_holds_dec a g) as [Hg|Hg]; [exact Hg|]. exfalso. apply (sub_sound _ _ _ H a).
    intros e [<-|He]; [apply lb_negate_holds; exact Hg|exact (Ha e He)].
  - assert (Hd : forall d, In d (map snd es) -> lb_holds a d).
    { intros d Hd. apply in_map_iff in Hd. destruct Hd as (e & <- & He). exact (Ha e He). }
    destruct H as [H|(d & Hi & H)]; [exact (rup_sound _ _ H a Hd)|apply H, Hd, Hi].
Qed.

Lemma og_terms_sum : forall (a : pv -> bool) w ts ts' k, og_terms w ts = (ts', k) ->
  lb_sum (ov_asg (on_solver (su_asg pv_eqd w a)) (on_solver a) (on_solver a)) ts = lb_sum a ts' + k.
Proof.
  intros a w ts. induction ts as [|[z l] ts IH]; intros ts' k E; cbn [og_terms] in E.
  - injection E as <- <-. reflexivity.
  - destruct (og_terms w ts) as [t0 k0] eqn:E0. cbn [lb_sum]. rewrite (IH t0 k0 eq_refl).
    unfold ax_true at 1. destruct (ax_var l) as [v|v|v]; cbn [ov_asg].
    + unfold on_solver at 1, su_asg at 1. destruct (su_get pv_eqd w (PVs v)) as [b|]; injection E as <- <-.
      * lia.
      * cbn [lb_sum]. unfold ax_true. cbn [ax_neg ax_var]. lia.
    + injection E as <- <-. cbn [lb_sum]. unfold ax_true, on_solver. cbn [ax_neg ax_var]. lia.
    + injection E as <- <-. cbn [lb_sum]. unfold ax_true, on_solver. cbn [ax_neg ax_var]. lia.
Qed.
Lemma ord_goal_holds : forall (a : pv -> bool) w c,
  lb_holds a (ord_goal w c) <->
  lb_holds (ov_asg (on_solver (su_asg pv_eqd w a)) (on_solver a) (on_solver a)) c.
Proof.
  intros a w c. unfold ord_goal. destruct (og_terms w (lb_terms c)) as [ts k] eqn:E.
  unfold lb_holds. cbn [lb_bound lb_terms]. rewrite (og_terms_sum a w _ ts k E). lia.
Qed.

Lemma red_sound : forall es targets next ord c w goals, red_ok es targets next ord c w goals ->
  forall a, db_holds a es -> ~ lb_holds a c ->
  lb_holds (su_asg pv_eqd w a) c /\ db_holds (su_asg pv_eqd w a) targets /\
  ord_holds ord (on_solver (su_asg pv_eqd w a)) (on_solver a).
Proof.
  intros es targets next ord c w goals (H1 & H2 & H3) a Ha Hc.
  assert (Ha' : db_holds a ((next, lb_negate c) :: es)).
  { intros e [<-|He]; [apply lb_negate_holds; exact Hc|exact (Ha e He)]. }
  split; [|split].
  - apply lb_subst_holds. exact (goal_sound _ _ _ _ H1 a Ha').
  - intros e He. apply lb_subst_holds. exact (goal_sound _ _ _ _ (H3 e He) a Ha').
  - unfold ord_holds. apply Forall_forall. intros o Ho. apply In_nth_error in Ho. destruct Ho as (i & Hi).
    apply ord_goal_holds. exact (goal_sound _ _ _ _ (H2 i o Hi) a Ha').
Qed.

(** ** The invariant behind an accepted proof *)
Section Sound.
Variable ord : list (lbc ov).
Hypothesis ord_refl : forall a, ord_holds ord a a.
Hypothesis ord_trans : forall a b c, ord_holds ord a b -> ord_holds ord b c -> ord_holds ord a c.

(** [a] is covered by an excluded solution *)
Definition covered (excl : list (list (ax pv))) (a : pv -> bool) : Prop :=
  exists ls b, In ls excl /\ ax_all b ls /\ ord_holds ord (on_solver b) (on_solver a).
(** [a] is covered or something at least as good satisfies the constraints *)
Definition kept (excl : list (list (ax pv))) (es : list entry) (a : pv -> bool) : Prop :=
  covered excl a \/ exists b, db_holds b es /\ ord_holds ord (on_solver b) (on_solver a).

Definition chk_inv (F : list entry) (k : chk) : Prop :=
  k_order k = ord /\
  (forall a, db_holds a F -> kept (k_excl k) (k_core k) a) /\
  (forall a, db_holds a (k_core k) -> kept (k_excl k) (k_all k) a).

Lemma covered_trans : forall excl a b, covered excl b -> ord_holds ord (on_solver b) (on_solver a) -> covered excl a.
Proof. intros excl a b (ls & c & H1 & H2 & H3) H. exists ls, c. split; [exact H1|]. split; [exact H2|]. eapply ord_trans; eassumption. Qed.
Lemma covered_more : forall ls excl a, covered excl a -> covered (ls :: excl) a.
Proof. intros ls excl a (l & b & H1 & H2 & H3). exists l, b. split; [right; exact H1|]. split; assumption. Qed.
Lemma kept_trans : forall excl es fs a, kept excl es a ->
  (forall b, db_holds b es -> kept excl fs b) -> kept excl fs a.
Proof.
  intros excl es fs a [H|(b & Hb & Ho)] Hs; [left; exact H|].
  destruct (Hs b Hb) as [H|(c & Hc & Ho')].
  - left. exact (covered_trans excl a b H Ho).
  - right. exists c. split; [exact Hc|]. eapply ord_trans; eassumption.
Qed.
Lemma kept_self : forall excl es a, db_holds a es -> kept excl es a.
Proof. intros excl es a H. right. exists a. split; [exact H|apply ord_refl]. Qed.
Lemma kept_weaker : forall excl es fs a, (forall b, db_holds b es -> db_holds b fs) -> kept excl es a -> kept excl fs a.
Proof. intros excl es fs a H Hk. apply (kept_trans excl es fs a Hk). intros b Hb. apply kept_self, H, Hb. Qed.

Lemma k_all_add : forall k c b, db_holds b (k_all (add_der k c)) <-> db_holds b (k_all k) /\ lb_holds b c.
Proof.
  intros k c b. unfold k_all, add_der, db_holds. cbn [k_core k_der]. split.
  - intros H. split.
    + intros e He. apply H. apply in_app_or in He. apply in_or_app. destruct He; [left; assumption|right; right; assumption].
    + apply (H (k_next k, c)). apply in_or_app. right. left. reflexivity.
  - intros [H1 H2] e He. apply in_app_or in He. destruct He as [He|[<-|He]]; [|exact H2|]; apply H1; apply in_or_app; tauto.
Qed.

(** adding a derived constraint *)
Lemma inv_add : forall F k c, chk_inv F k ->
  (forall a, db_holds a (k_all k) -> kept (k_excl k) (k_all (add_der k c)) a) -> chk_inv F (add_der k c).
Proof.
  intros F k c (H0 & H1 & H2) H. split; [exact H0|]. split; [exact H1|].
  intros a Ha. cbn [add_der k_excl k_core] in *. apply (kept_trans _ (k_all k)); [exact (H2 a Ha)|exact H].
Qed.

Lemma rm_ids_incl : forall ns es, incl (rm_ids ns es) es.
Proof. intros ns es e He. apply filter_In in He. tauto. Qed.
Lemma rm_cons : forall n r es e, In e (rm_ids (n :: r) es) <-> In e (rm_ids r (rm_ids [n] es)).
Proof.
  intros n r es e. unfold rm_ids. rewrite !filter_In. cbn [existsb]. rewrite orb_false_r.
  destruct (Nat.eqb (fst e) n), (existsb (fun m => Nat.eqb (fst e) m) r); cbn; tauto.
Qed.

Lemma del_sound : forall ns goals next (core : list entry),
  (forall i c c', In (i, c) core -> In (i, c') core -> c = c') ->
  del_ok core next ord ns goals -> forall a, db_holds a (rm_ids ns core) -> db_holds a core.
Proof.
  intros ns goals next. induction ns as [|n r IH]; intros core Hu H a Ha.
  - intros e He. apply Ha. unfold rm_ids. apply filter_In. split; [exact He|reflexivity].
  - cbn [del_ok] in H. destruct (e_get core n) as [c|] eqn:E.
    + destruct H as (Hg & Hr).
      assert (Hrest : db_holds a (rm_ids [n] core)).
      { apply (IH (rm_ids [n] core)); [|exact Hr|].
        - intros i c1 c2 X Y. apply (Hu i); [exact (rm_ids_incl _ _ _ X)|exact (rm_ids_incl _ _ _ Y)].
        - intros e He. apply Ha. apply rm_cons. exact He. }
      assert (Hc : lb_holds a c).
      { destruct (lb_holds_dec a c) as [Hc|Hc]; [exact Hc|].
        apply (goal_sound _ _ _ _ Hg a). intros e [<-|He]; [apply lb_negate_holds; exact Hc|exact (Hrest e He)]. }
      intros e He. destruct (Nat.eqb (fst e) n) eqn:En.
      * apply Nat.eqb_eq in En. destruct e as [i d]. cbn [fst] in En. subst i.
        cbn [snd]. rewrite (Hu n d c He (e_get_in _ _ _ E)). exact Hc.
      * apply Hrest. unfold rm_ids. apply filter_In. split; [exact He|]. cbn [existsb]. rewrite En. reflexivity.
    + assert (Hn : forall e, In e core -> Nat.eqb (fst e) n = false).
      { intros [i d] He. cbn [fst]. destruct (Nat.eqb_spec i n) as [->|]; [|reflexivity]. exfalso.
        clear - E He. induction core as [|[j x] core IHc]; [destruct He|]. cbn [e_get] in E.
        destruct (Nat.eqb_spec j n) as [->|Hj]; [discriminate|]. destruct He as [He|He]; [congruence|exact (IHc E He)]. }
      apply (IH core Hu H). intros e He. apply Ha. apply rm_cons.
      unfold rm_ids in *. apply filter_In in He. apply filter_In. split; [|tauto].
      apply filter_In. split; [tauto|]. cbn [existsb]. rewrite (Hn e) by tauto. reflexivity.
Qed.

(** ids are unique *)
Definition ids_ok (k : chk) : Prop :=
  (forall i c c', In (i, c) (k_all k) -> In (i, c') (k_all k) -> c = c') /\
  forall e, In e (k_all k) -> (fst e < k_next k)%nat.

Lemma in_k_all : forall k e, In e (k_all k) <-> In e (k_core k) \/ In e (k_der k).
Proof. intros k e. unfold k_all. apply in_app_iff. Qed.

Lemma step_core_all : forall k ids e, In e (k_all (step_next k (SCore ids))) <-> In e (k_all k).
Proof.
  intros k ids e. rewrite !in_k_all. cbn [step_next k_core k_der]. rewrite in_app_iff. unfold pick_ids, rm_ids.
  rewrite !filter_In. destruct (existsb (fun n => Nat.eqb (fst e) n) (map (cid_abs (k_next k)) ids)); cbn; intuition discriminate.
Qed.
Lemma ids_add : forall k e b, ids_ok k -> fst e = k_next k ->
  (forall x, In x (k_all b) -> x = e \/ In x (k_all k)) -> k_next b = S (k_next k) -> ids_ok b.
Proof.
  intros k e b (H1 & H2) He Hb Hn. split.
  - intros i c c' X Y. apply Hb in X. apply Hb in Y.
    destruct X as [X|X], Y as [Y|Y].
    + congruence.
    + subst e. cbn [fst] in He. apply H2 in Y. cbn [fst] in Y. lia.
    + subst e. cbn [fst] in He. apply H2 in X. cbn [fst] in X. lia.
    + exact (H1 i c c' X Y).
  - intros x X. rewrite Hn. apply Hb in X. destruct X as [->|X]; [lia|]. apply H2 in X. lia.
Qed.
Lemma step_ids : forall k s, ids_ok k -> ids_ok (step_next k s).
Proof.
  intros k s Hk.
  assert (Had : forall c, ids_ok (add_der k c)).
  { intros c. apply (ids_add k (k_next k, c)); [exact Hk|reflexivity| |reflexivity].
    intros x. rewrite !in_k_all. unfold add_der. cbn [k_core k_der In]. intuition. }
  destruct s as [p|c hs|c w gs|ls full|ids|ids gs]; cbn [step_next].
  - destruct (pol_eval pv_eqd (id_get (k_all k) (k_next k)) p); [apply Had|exact Hk].
  - apply Had.
  - apply Had.
  - apply (ids_add k (k_next k, lb_clause (map ax_not full))); [exact Hk|reflexivity| |reflexivity].
    intros x. rewrite !in_k_all. cbn [k_core k_der In]. intuition.
  - destruct Hk as (H1 & H2). split.
    + intros i c c' X Y. apply (H1 i); apply (step_core_all k ids); assumption.
    + intros e X. apply (step_core_all k ids) in X. exact (H2 e X).
  - destruct Hk as (H1 & H2).
    assert (Hi : forall e, In e (k_all (step_next k (SDel ids gs))) -> In e (k_all k)).
    { intros e. rewrite !in_k_all. cbn [step_next k_core k_der]. intros [X|X]; apply rm_ids_incl in X; tauto. }
    split.
    + intros i c c' X Y. apply (H1 i); apply Hi; assumption.
    + intros e X. exact (H2 e (Hi e X)).
Qed.

Lemma step_sound : forall F k s, ids_ok k -> chk_inv F k -> step_valid k s -> chk_inv F (step_next k s).
Proof.
  intros F k s Hid Hinv Hv. destruct s as [p|c hs|c w gs|ls full|ids|ids gs]; cbn [step_next step_valid] in *.
  - destruct (pol_eval pv_eqd (id_get (k_all k) (k_next k)) p) as [c|] eqn:E; [|exact Hinv].
    apply inv_add; [exact Hinv|]. intros a Ha. apply kept_self. apply k_all_add. split; [exact Ha|].
    eapply (pol_sound pv_eqd); [|exact E]. intros i d. apply id_get_holds. exact Ha.
  - destruct Hv as (cs & E & Hr). apply inv_add; [exact Hinv|]. intros a Ha. apply kept_self. apply k_all_add.
    split; [exact Ha|]. apply (rup_sound cs c Hr). apply (hints_hold a _ _ hs cs Ha E).
  - apply inv_add; [exact Hinv|]. intros a Ha. destruct (lb_holds_dec a c) as [Hc|Hc].
    + apply kept_self. apply k_all_add. split; assumption.
    + destruct Hinv as (Ho & _ & _). destruct (red_sound _ _ _ _ _ _ _ Hv a Ha Hc) as (R1 & R2 & R3).
      right. exists (su_asg pv_eqd w a). split; [apply k_all_add; split; assumption|]. rewrite <- Ho. exact R3.
  - destruct Hinv as (H0 & H1 & H2). split; [exact H0|]. cbn [k_excl k_core k_order].
    set (cl := lb_clause (map ax_not full)).
    assert (Hin : forall l, In l ls -> In l full) by (destruct Hv as (Hu & _); exact (up_to_incl _ _ _ Hu)).
    assert (Hcase : forall b, lb_holds b cl \/ covered (ls :: k_excl k) b).
    { intros b. destruct (lb_holds_dec b cl) as [Hb|Hb]; [left; exact Hb|right].
      apply clause_not_all in Hb. exists ls, b. split; [left; reflexivity|]. split; [|apply ord_refl].
      intros l Hl. apply Hb. apply Hin. exact Hl. }
    assert (Hstep : forall es a, kept (k_excl k) es a -> kept (ls :: k_excl k) ((k_next k, cl) :: es) a).
    { intros es a [H|(b & Hb & Hob)]; [left; apply covered_more; exact H|].
      destruct (Hcase b) as [Hcl|Hcov].
      - right. exists b. split; [|exact Hob]. intros e [<-|He]; [exact Hcl|exact (Hb e He)].
      - left. exact (covered_trans _ a b Hcov Hob). }
    split.
    + intros a Ha. apply Hstep. exact (H1 a Ha).
    + intros a Ha. unfold k_all. cbn [k_core k_der app]. apply (Hstep (k_core k ++ k_der k) a). apply H2.
      intros e He. apply Ha. right. exact He.
  - destruct Hinv as (H0 & H1 & H2). split; [exact H0|].
    assert (Hall : forall b, db_holds b (k_all (step_next k (SCore ids))) <-> db_holds b (k_all k)).
    { intros b. unfold db_holds. split; intros H e He; apply H; apply (step_core_all k ids); exact He. }
    assert (Hcore : forall b, db_holds b (k_all k) -> db_holds b (k_core (step_next k (SCore ids)))).
    { intros b Hb e He. apply (proj2 (Hall b) Hb). apply in_k_all. left. exact He. }
    change (mkChk _ _ _ _ _) with (step_next k (SCore ids)).
    split.
    + intros a Ha. change (k_excl (step_next k (SCore ids))) with (k_excl k).
      apply (kept_trans _ (k_core k)); [exact (H1 a Ha)|]. intros b Hb.
      apply (kept_weaker _ (k_all k)); [exact Hcore|]. exact (H2 b Hb).
    + intros a Ha. change (k_excl (step_next k (SCore ids))) with (k_excl k).
      apply (kept_weaker _ (k_all k)); [intros b Hb; apply Hall; exact Hb|]. apply H2.
      intros e He. apply Ha. cbn [step_next k_core]. apply in_or_app. right. exact He.
  - destruct Hinv as (H0 & H1 & H2). split; [exact H0|]. cbn [k_excl k_core].
    assert (Hd : forall a, db_holds a (rm_ids (map (cid_abs (k_next k)) ids) (k_core k)) -> db_holds a (k_core k)).
    { apply (del_sound _ gs (k_next k)); [|rewrite <- H0; exact Hv].
      intros i c c' X Y. destruct Hid as (U & _). apply (U i); apply in_k_all; left; assumption. }
    split.
    + intros a Ha. apply (kept_weaker _ (k_core k)); [|exact (H1 a Ha)].
      intros b Hb e He. apply Hb. exact (rm_ids_incl _ _ _ He).
    + intros a Ha. apply (kept_weaker _ (k_all k)); [|exact (H2 a (Hd a Ha))].
      intros b Hb e He. apply Hb. apply in_k_all. apply in_k_all in He. cbn [k_core k_der] in He.
      destruct He as [He|He]; apply rm_ids_incl in He; tauto.
Qed.

Lemma steps_sound : forall ss F k, ids_ok k -> chk_inv F k -> steps_valid k ss ->
  ids_ok (steps_next k ss) /\ chk_inv F (steps_next k ss).
Proof.
  intros ss F. induction ss as [|s ss IH]; intros k Hid Hinv Hv; cbn [steps_next steps_valid] in *; [tauto|].
  destruct Hv as (Hs & Hr). apply IH; [apply step_ids; exact Hid|apply step_sound; assumption|exact Hr].
Qed.

(** The start of a proof: the input constraints are core constraints 1, 2, ... *)
Lemma start_inv : forall F next, chk_inv F (mkChk F [] next ord []).
Proof.
  intros F next. split; [reflexivity|]. split; intros a Ha; cbn [k_excl k_core].
  - apply kept_self. exact Ha.
  - apply kept_self. unfold k_all. cbn [k_core k_der]. rewrite app_nil_r. exact Ha.
Qed.

(** An accepted proof that ends with a contradiction covers every solution *)
Lemma accepted_covers : forall F next ss,
  ids_ok (mkChk F [] next ord []) ->
  steps_valid (mkChk F [] next ord []) ss ->
  (exists e, In e (k_all (steps_next (mkChk F [] next ord []) ss)) /\ contradictory (snd e)) ->
  forall a, db_holds a F -> covered (k_excl (steps_next (mkChk F [] next ord []) ss)) a.
Proof.
  intros F next ss Hid Hv (e & He & Hc) a Ha.
  destruct (steps_sound ss F _ Hid (start_inv F next) Hv) as (_ & (_ & H1 & H2)).
  destruct (kept_trans _ _ _ a (H1 a Ha) H2) as [H|(b & Hb & _)]; [exact H|].
  exfalso. exact (contradictory_sound b _ Hc (Hb e He)).
Qed.
End Sound.

(** ** Accepted orders are pre-orders *)
Definition no_w (c : lbc ov) : Prop := forall t, In t (lb_terms c) -> forall v, ax_var (snd t) <> OvW v.
Lemma ov_map_holds : forall f (a : ov -> bool) c, lb_holds a (ov_map f c) <-> lb_holds (fun x => a (f x)) c.
Proof.
  intros f a c. unfold lb_holds, ov_map. cbn [lb_bound lb_terms].
  assert (E : lb_sum a (map (fun t => (fst t, mkAx (f (ax_var (snd t))) (ax_neg (snd t)))) (lb_terms c)) =
              lb_sum (fun x => a (f x)) (lb_terms c)).
  { induction (lb_terms c) as [|[z l] ts IH]; [reflexivity|]. cbn [map lb_sum fst snd]. rewrite IH. reflexivity. }
  rewrite E. tauto.
Qed.
Lemma lb_holds_ext : forall {V} (a b : V -> bool) c, (forall t, In t (lb_terms c) -> a (ax_var (snd t)) = b (ax_var (snd t))) ->
  lb_holds a c -> lb_holds b c.
Proof.
  intros V a b c. unfold lb_holds. intros H.
  assert (E : lb_sum a (lb_terms c) = lb_sum b (lb_terms c)); [|rewrite E; tauto].
  induction (lb_terms c) as [|[z l] ts IH]; [reflexivity|]. cbn [lb_sum].
  rewrite IH by (intros t Ht; apply H; right; exact Ht).
  unfold ax_true. pose proof (H (z, l) (or_introl eq_refl)) as X. cbn [snd] in X. rewrite X. reflexivity.
Qed.
Lemma order_refl : forall os, order_ok os -> (forall c p, In (c, p) os -> no_w c) ->
  forall a, ord_holds (map fst os) a a.
Proof.
  intros os H Hw a. unfold ord_holds. apply Forall_forall. intros c Hc. apply in_map_iff in Hc.
  destruct Hc as ([c' p] & <- & Hi). cbn [fst]. destruct (H c' p Hi) as (_ & Hr).
  pose proof (contradictory_sound (ov_asg a a a) _ Hr) as X. rewrite lb_negate_holds in X.
  destruct (lb_holds_dec (ov_asg a a a) (ov_map ov_uu c')) as [Y|Y]; [|contradiction].
  apply (proj1 (ov_map_holds _ _ _)) in Y. apply (lb_holds_ext _ _ c') with (2 := Y).
  intros t _. destruct (ax_var (snd t)); reflexivity.
Qed.
Lemma order_transitive : forall os, order_ok os -> (forall c p, In (c, p) os -> no_w c) ->
  forall a b c, ord_holds (map fst os) a b -> ord_holds (map fst os) b c -> ord_holds (map fst os) a c.
Proof.
  intros os H Hw a b c Hab Hbc. unfold ord_holds in *. rewrite Forall_forall in *. intros o Ho.
  pose proof Ho as Ho'. apply in_map_iff in Ho'. destruct Ho' as ([o' p] & E & Hi). cbn [fst] in E. subst o'.
  destruct (H o p Hi) as ((d & Ed & Hd) & _).
  assert (Hno : forall x, In x (map fst os) -> no_w x).
  { intros x Hx. apply in_map_iff in Hx. destruct Hx as ([x' q] & <- & Hx). exact (Hw x' q Hx). }
  destruct (lb_holds_dec (ov_asg a c c) o) as [Y|Y]; [exact Y|]. exfalso.
  apply (contradictory_sound (ov_asg a b c) d Hd).
  eapply (pol_sound ov_eqd); [|exact Ed]. intros i x Hx. destruct i as [[|n]|[|[|k]]]; cbn [order_get] in Hx; try discriminate.
  - apply nth_error_In in Hx. apply in_app_or in Hx. destruct Hx as [Hx|Hx].
    + apply (lb_holds_ext (ov_asg a b b)); [|exact (Hab x Hx)].
      intros t Ht. pose proof (Hno x Hx t Ht). destruct (ax_var (snd t)) as [v|v|v]; try reflexivity. exfalso. eapply H0. reflexivity.
    + apply in_map_iff in Hx. destruct Hx as (y & <- & Hy). apply ov_map_holds.
      apply (lb_holds_ext (ov_asg b c c)); [|exact (Hbc y Hy)].
      intros t Ht. destruct (ax_var (snd t)) as [v|v|v]; reflexivity.
  - injection Hx as <-. apply lb_negate_holds. intros X. apply Y. apply (proj1 (ov_map_holds _ _ _)) in X.
    apply (lb_holds_ext _ _ o) with (2 := X). intros t _. destruct (ax_var (snd t)); reflexivity.
Qed.
