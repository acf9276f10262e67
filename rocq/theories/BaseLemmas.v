(** * Basic lemmas about literals, clauses and assignments *)
From Coq Require Import List Bool Arith Lia ZArith.
From Verif Require Import Base.
Import ListNotations.

Lemma lit_eqb_eq a b : lit_eqb a b = true <-> a = b.
Proof.
  destruct a as [v s], b as [w t]; unfold lit_eqb; cbn.
  rewrite andb_true_iff, Nat.eqb_eq, eqb_true_iff. split.
  - intros [-> ->]; reflexivity.
  - intros [= -> ->]; auto.
Qed.
Lemma lit_eqb_refl a : lit_eqb a a = true.
Proof. now apply lit_eqb_eq. Qed.
Lemma lit_eqb_neq a b : lit_eqb a b = false <-> a <> b.
Proof.
  rewrite <- (lit_eqb_eq a b). destruct (lit_eqb a b); split; congruence.
Qed.
Lemma lit_eq_dec (a b : lit) : {a = b} + {a <> b}.
Proof.
  destruct (lit_eqb a b) eqn:e.
  - left; now apply lit_eqb_eq.
  - right; now apply lit_eqb_neq.
Defined.

Lemma lnot_lnot l : lnot (lnot l) = l.
Proof. destruct l as [v s]; unfold lnot; cbn. now rewrite negb_involutive. Qed.
Lemma lvar_lnot l : lvar (lnot l) = lvar l.
Proof. reflexivity. Qed.
Lemma lnot_inj a b : lnot a = lnot b -> a = b.
Proof. intros H. rewrite <- (lnot_lnot a), <- (lnot_lnot b). now rewrite H. Qed.

Lemma lit_true_lnot a l : lit_true a (lnot l) = negb (lit_true a l).
Proof. destruct l as [v s]; unfold lit_true, lnot; cbn. destruct s, (a v); reflexivity. Qed.
Lemma lit_true_pos a v : lit_true a (pos v) = a v.
Proof. unfold lit_true; cbn. destruct (a v); reflexivity. Qed.
Lemma lit_true_neg a v : lit_true a (neg v) = negb (a v).
Proof. unfold lit_true; cbn. destruct (a v); reflexivity. Qed.

Lemma clause_true_iff a c :
  clause_true a c = true <-> exists l, In l c /\ lit_true a l = true.
Proof. unfold clause_true. rewrite existsb_exists. reflexivity. Qed.
Lemma clause_true_app a c d :
  clause_true a (c ++ d) = clause_true a c || clause_true a d.
Proof. unfold clause_true. apply existsb_app. Qed.
Lemma clause_false_iff a c :
  clause_true a c = false <-> forall l, In l c -> lit_true a l = false.
Proof.
  split.
  - intros H l Hl. destruct (lit_true a l) eqn:e; [|reflexivity].
    assert (clause_true a c = true) by (apply clause_true_iff; eauto). congruence.
  - intros H. destruct (clause_true a c) eqn:e; [|reflexivity].
    apply clause_true_iff in e. destruct e as (l & Hl & Ht). rewrite (H l Hl) in Ht. congruence.
Qed.

Lemma sat_nil a : sat a [].
Proof. intros c []. Qed.
Lemma sat_cons a c cs : sat a (c :: cs) <-> clause_true a c = true /\ sat a cs.
Proof.
  unfold sat. split.
  - intros H. split; [apply H; now left | intros d Hd; apply H; now right].
  - intros [H1 H2] d [<-|Hd]; auto.
Qed.
Lemma sat_app a c d : sat a (c ++ d) <-> sat a c /\ sat a d.
Proof.
  unfold sat. split.
  - intros H. split; intros x Hx; apply H, in_or_app; auto.
  - intros [H1 H2] x Hx. apply in_app_or in Hx. destruct Hx; auto.
Qed.
Lemma sat_incl a cs ds : incl ds cs -> sat a cs -> sat a ds.
Proof. intros H Hs c Hc. apply Hs, H, Hc. Qed.

Lemma lits_true_app a c d : lits_true a (c ++ d) <-> lits_true a c /\ lits_true a d.
Proof.
  unfold lits_true. split.
  - intros H. split; intros x Hx; apply H, in_or_app; auto.
  - intros [H1 H2] x Hx. apply in_app_or in Hx. destruct Hx; auto.
Qed.
Lemma lits_true_nil a : lits_true a [].
Proof. intros l []. Qed.
Lemma lits_true_cons a l ls :
  lits_true a (l :: ls) <-> lit_true a l = true /\ lits_true a ls.
Proof.
  unfold lits_true. split.
  - intros H. split; [apply H; now left | intros x Hx; apply H; now right].
  - intros [H1 H2] x [<-|Hx]; auto.
Qed.

Lemma in_lits_vars v ls : In v (lits_vars ls) <-> exists l, In l ls /\ lvar l = v.
Proof.
  unfold lits_vars. rewrite in_map_iff. split; intros (l & H1 & H2); exists l; auto.
Qed.
Lemma in_cls_vars v cs : In v (cls_vars cs) <-> exists c, In c cs /\ In v (lits_vars c).
Proof. unfold cls_vars. now rewrite in_flat_map. Qed.
Lemma cls_vars_app a b : cls_vars (a ++ b) = cls_vars a ++ cls_vars b.
Proof. unfold cls_vars. now rewrite flat_map_app. Qed.
Lemma cls_vars_cons a b : cls_vars (a :: b) = lits_vars a ++ cls_vars b.
Proof. reflexivity. Qed.
Lemma lits_vars_app a b : lits_vars (a ++ b) = lits_vars a ++ lits_vars b.
Proof. apply map_app. Qed.

Lemma lit_true_agree U a b l : agree U a b -> U (lvar l) -> lit_true a l = lit_true b l.
Proof. intros H Hu. unfold lit_true. now rewrite (H _ Hu). Qed.
Lemma clause_true_agree U a b c :
  agree U a b -> (forall v, In v (lits_vars c) -> U v) -> clause_true a c = clause_true b c.
Proof.
  intros H. induction c as [|l c IH]; intros Hu; cbn; [reflexivity|].
  unfold clause_true in *. cbn. rewrite IH by (intros; apply Hu; cbn; auto).
  now rewrite (lit_true_agree U a b l H) by (apply Hu; cbn; auto).
Qed.
Lemma sat_agree U a b cs :
  agree U a b -> (forall v, In v (cls_vars cs) -> U v) -> sat a cs -> sat b cs.
Proof.
  intros H Hu Hs c Hc. rewrite <- (clause_true_agree U a b c H).
  - auto.
  - intros v Hv. apply Hu, in_cls_vars. eauto.
Qed.
Lemma lits_true_agree U a b ls :
  agree U a b -> (forall l, In l ls -> U (lvar l)) -> lits_true a ls -> lits_true b ls.
Proof.
  intros H Hu Hs l Hl. rewrite <- (lit_true_agree U a b l H); auto.
Qed.
Lemma agree_refl U a : agree U a a.
Proof. intros v _; reflexivity. Qed.
Lemma agree_sym U a b : agree U a b -> agree U b a.
Proof. intros H v Hv. symmetry. auto. Qed.
Lemma agree_trans U a b c : agree U a b -> agree U b c -> agree U a c.
Proof. intros H1 H2 v Hv. rewrite H1, H2; auto. Qed.
Lemma agree_mono (U V : nat -> Prop) a b :
  (forall v, V v -> U v) -> agree U a b -> agree V a b.
Proof. intros HUV H v Hv. auto. Qed.

Lemma wsum_app a x y : wsum a (x ++ y) = wsum a x + wsum a y.
Proof. induction x as [|[l w] x IH]; cbn; [reflexivity|]. rewrite IH. lia. Qed.
Lemma wsum_le_total a x : wsum a x <= wtotal x.
Proof. induction x as [|[l w] x IH]; cbn; [lia|]. destruct (lit_true a l); lia. Qed.
Lemma wsum_agree U a b x :
  agree U a b -> (forall v, In v (lits_vars (map fst x)) -> U v) -> wsum a x = wsum b x.
Proof.
  intros H. induction x as [|[l w] x IH]; intros Hu; cbn; [reflexivity|].
  rewrite IH by (intros; apply Hu; cbn; auto).
  now rewrite (lit_true_agree U a b l H) by (apply Hu; cbn; auto).
Qed.

(** Update of a total assignment *)
Definition upd (m : asg) (v : nat) (b : bool) : asg :=
  fun w => if Nat.eqb w v then b else m w.
Lemma upd_eq m v b : upd m v b v = b.
Proof. unfold upd. now rewrite Nat.eqb_refl. Qed.
Lemma upd_neq m v b w : w <> v -> upd m v b w = m w.
Proof. intros H. unfold upd. destruct (Nat.eqb_spec w v); congruence. Qed.
Lemma agree_upd (U : nat -> Prop) m v b : ~ U v -> agree U m (upd m v b).
Proof. intros H w Hw. rewrite upd_neq; [reflexivity|]. congruence. Qed.

Lemma sol_of_nth m v i : i <= v -> nth_error (sol_of m v) i = Some (Some (m i)).
Proof.
  intros H. unfold sol_of. rewrite nth_error_map.
  rewrite (nth_error_nth' _ 0) by (rewrite seq_length; lia).
  rewrite seq_nth by lia. reflexivity.
Qed.
Lemma sol_of_nth_out m v i : v < i -> nth_error (sol_of m v) i = None.
Proof.
  intros H. apply nth_error_None. unfold sol_of. rewrite map_length, seq_length. lia.
Qed.
Lemma sol_of_length m v : length (sol_of m v) = S v.
Proof. unfold sol_of. now rewrite map_length, seq_length. Qed.
Lemma lit_value_sol_of m v l : lvar l <= v -> lit_value (sol_of m v) l = Some (lit_true m l).
Proof.
  intros H. unfold lit_value, var_value. rewrite sol_of_nth by assumption. reflexivity.
Qed.
Lemma firstn_seq n k s : firstn n (seq s k) = seq s (Nat.min n k).
Proof.
  revert k s. induction n as [|n IH]; intros [|k] s; cbn; try reflexivity.
  now rewrite IH.
Qed.
Lemma truncate_sol_of m v o : o <= v -> truncate (sol_of m v) o = sol_of m o.
Proof.
  intros H. unfold truncate, sol_of. rewrite firstn_map, firstn_seq.
  now replace (Nat.min (S o) (S v)) with (S o) by lia.
Qed.
Lemma sol_of_ext m m' v : agree (fun i => i <= v) m m' -> sol_of m v = sol_of m' v.
Proof.
  intros H. unfold sol_of. apply map_ext_in. intros i Hi. apply in_seq in Hi.
  now rewrite (H i) by lia.
Qed.
Lemma sol_of_inj m m' v : sol_of m v = sol_of m' v -> agree (fun i => i <= v) m m'.
Proof.
  intros H i Hi. pose proof (sol_of_nth m v i Hi) as H1.
  rewrite H, sol_of_nth in H1 by assumption. congruence.
Qed.
