(** * C75: proof logging does not change the result, and runs with proof logging make a bounded number of iterations *)
From Coq Require Import List Arith ZArith Lia Bool Permutation.
From Verif Require Import Spec ApiSpec Base BaseLemmas Sem Ext EncSpec Kern ApiTop MTypes MKernel MPMinimal MPrepro VeriPB MProofs ProofRun ReformSpec MProofAlg ReifSpec ProofCert RunSpec RunThm BosRunSpec BosRunThm BoostSpec BoostThm MProofRun FrontThm MProofBos BosFrontThm PropBosFront PropFrontProof.
From Verif Require ExInst Inst PropProof PropBosRun PropRun.
Import ListNotations.
Local Open Scope nat_scope.

(** ** The runs of C73, and how often the place in the algorithm changes *)
(** the states of P-minimal and lower-bounding with proof logging, optionally after core boosting *)
Definition pm_reaches (n : nat) (cls : list clause) (rs : list raw_obj) (s : fstate) : Prop :=
  exists cs r0, map co_obj cs = build_objs 0 rs /\ (forall c b, In c cs -> pe_extend (co_enc c) b = []) /\
    let k0 := init_chk cls (build_objs 0 rs) in
    enc_fine (k_all k0) cs /\ boosts k0 n (inst_sol n cls) (start_run n cls cs) r0 /\ pm_runs k0 n cls (mkFs AtOuter r0 []) s.
(** runs of which [m] steps change the place; in between the solver and the encodings write any number of lines *)
Inductive pm_turns (k0 : chk) (n : nat) (cls : list clause) : nat -> fstate -> fstate -> Prop :=
| pt_refl : forall s, enc_works k0 cls (f_r s) -> pm_turns k0 n cls 0 s s
| pt_stay : forall m s1 s2 s3, pm_turns k0 n cls m s1 s2 -> pm_step k0 n cls s2 s3 -> enc_works k0 cls (f_r s3) -> f_at s3 = f_at s2 -> pm_turns k0 n cls m s1 s3
| pt_turn : forall m s1 s2 s3, pm_turns k0 n cls m s1 s2 -> pm_step k0 n cls s2 s3 -> enc_works k0 cls (f_r s3) -> f_at s3 <> f_at s2 -> pm_turns k0 n cls (S m) s1 s3.
Inductive bf_turns (k0 : chk) (n : nat) (cls : list clause) (dec_lb : nat) : nat -> bfstate -> bfstate -> Prop :=
| bt_refl : forall s, enc_works k0 cls (br_r (bf_s s)) -> bf_turns k0 n cls dec_lb 0 s s
| bt_stay : forall m s1 s2 s3, bf_turns k0 n cls dec_lb m s1 s2 -> bf_step k0 n cls dec_lb s2 s3 -> enc_works k0 cls (br_r (bf_s s3)) -> bf_at s3 = bf_at s2 -> bf_turns k0 n cls dec_lb m s1 s3
| bt_turn : forall m s1 s2 s3, bf_turns k0 n cls dec_lb m s1 s2 -> bf_step k0 n cls dec_lb s2 s3 -> enc_works k0 cls (br_r (bf_s s3)) -> bf_at s3 <> bf_at s2 -> bf_turns k0 n cls dec_lb (S m) s1 s3.
(** every run has such a number *)
Lemma at_dec : forall (a b : place), {a = b} + {a <> b}.
Proof. intros a b. decide equality; apply (list_eq_dec); intros x y; repeat decide equality. Qed.
Lemma bat_dec : forall (a b : bplace), {a = b} + {a <> b}.
Proof. intros a b. decide equality; try apply Nat.eq_dec; apply (list_eq_dec); intros x y; repeat decide equality. Qed.
Lemma pm_counted : forall k0 n cls s s', pm_runs k0 n cls s s' <-> exists m, pm_turns k0 n cls m s s'.
Proof.
  intros k0 n cls s s'. split.
  - intros H. induction H as [s W|s1 s2 s3 H (m & IH) S W]; [exists 0; apply pt_refl; exact W|].
    destruct (at_dec (f_at s3) (f_at s2)) as [E|E]; [exists m; exact (pt_stay _ _ _ m _ _ _ IH S W E)|exists (Datatypes.S m); exact (pt_turn _ _ _ m _ _ _ IH S W E)].
  - intros (m & H). induction H as [s W|m s1 s2 s3 H IH S W E|m s1 s2 s3 H IH S W E]; [apply pr_refl; exact W|exact (pr_step _ _ _ _ _ _ IH S W)|exact (pr_step _ _ _ _ _ _ IH S W)].
Qed.
Lemma bf_counted : forall k0 n cls lb s s', bf_runs k0 n cls lb s s' <-> exists m, bf_turns k0 n cls lb m s s'.
Proof.
  intros k0 n cls lb s s'. split.
  - intros H. induction H as [s W|s1 s2 s3 H (m & IH) S W]; [exists 0; apply bt_refl; exact W|].
    destruct (bat_dec (bf_at s3) (bf_at s2)) as [E|E]; [exists m; exact (bt_stay _ _ _ _ m _ _ _ IH S W E)|exists (Datatypes.S m); exact (bt_turn _ _ _ _ m _ _ _ IH S W E)].
  - intros (m & H). induction H as [s W|m s1 s2 s3 H IH S W E|m s1 s2 s3 H IH S W E]; [apply bfr_refl; exact W|exact (bfr_step _ _ _ _ _ _ _ IH S W)|exact (bfr_step _ _ _ _ _ _ _ IH S W)].
Qed.

(** ** Cost vectors *)
(** an upper bound for the number of cost vectors: the values of an objective lie between its offset and the offset plus the sum of its weights *)
Fixpoint n_values (rs : list raw_obj) : nat := match rs with [] => 1 | r :: rs => S (wtotal (fst r)) * n_values rs end.
Fixpoint zgrid (rs : list raw_obj) : list (list Z) :=
  match rs with
  | [] => [[]]
  | r :: rs => flat_map (fun x => map (cons (snd r + Z.of_nat x)%Z) (zgrid rs)) (seq 0 (S (wtotal (fst r))))
  end.
Lemma costs_in_grid : forall rs a, In (costs rs a) (zgrid rs).
Proof.
  induction rs as [|r rs IH]; intros a; [left; reflexivity|]. cbn [costs map zgrid]. apply in_flat_map. exists (wsum a (fst r)).
  split; [apply in_seq; pose proof (wsum_le_total a (fst r)); lia|]. change (obj_value r a) with (snd r + Z.of_nat (wsum a (fst r)))%Z. apply in_map. exact (IH a).
Qed.
Lemma grid_len : forall rs, length (zgrid rs) = n_values rs.
Proof.
  induction rs as [|r rs IH]; [reflexivity|]. cbn [zgrid n_values]. rewrite <- IH.
  assert (Q : forall l, length (flat_map (fun x => map (cons (snd r + Z.of_nat x)%Z) (zgrid rs)) l) = length l * length (zgrid rs)).
  { induction l as [|x l IHl]; [reflexivity|]. cbn [flat_map length Nat.mul]. rewrite app_length, map_length, IHl. reflexivity. }
  rewrite Q, seq_length. reflexivity.
Qed.
Lemma distinct_costs : forall rs (l : list assignment), NoDup (map (fun d => costs rs (asg_of d)) l) -> length l <= n_values rs.
Proof.
  intros rs l H. rewrite <- grid_len, <- (map_length (fun d => costs rs (asg_of d)) l). apply NoDup_incl_length; [exact H|].
  intros c Hc. apply in_map_iff in Hc. destruct Hc as (d & <- & _). apply costs_in_grid.
Qed.
Lemma icost_total : forall rs i o a, Forall obj_ok rs -> nth_error (map bare (build_objs 0 rs)) i = Some (bare o) ->
  exists r, nth_error rs i = Some r /\ icost o a <= wtotal (fst r).
Proof.
  intros rs i o a Hok E. rewrite nth_error_map, build_nth in E. destruct (nth_error rs i) as [r|] eqn:Er; [|discriminate]. exists r. split; [reflexivity|].
  cbn [option_map] in E. assert (E' : bare o = bare (obj_new (fst r) (snd r) (0 + i))) by congruence. rewrite (bare_icost _ _ a E').
  pose proof (proj1 (Forall_forall _ _) Hok r (nth_error_In _ _ Er)) as Hr. destruct (icost_value r (0 + i) a Hr) as (Ha & Hf & _).
  change (obj_value r a) with (snd r + Z.of_nat (wsum a (fst r)))%Z in Ha. pose proof (wsum_le_total a (fst r)). nia.
Qed.

(** ** C75: the same front with and without proof logging, with any of the algorithms *)
Theorem C75_same_front : forall I (SP : enc_spec I) i al o E l s n s', inst_ok i -> enum_ok i o -> oracle_ok E -> lims_pos l -> inst_vars n (in_cls i) (in_objs i) ->
  first_solve (I := I) al i o E l = Some (Done tt, s) ->
  pm_reaches n (in_cls i) (in_objs i) s' -> pm_finished (init_chk (in_cls i) (build_objs 0 (in_objs i))) s' ->
  Permutation (map nd_costs (s_front s)) (map nd_costs (f_front s')).
Proof.
  intros I SP i al o E l s n s' HI HE HO Hl Hv H (cs & r0 & Eo & Ex & Hf & B & R) Fin. destruct (top_exact SP i o HI HE al E l s HO Hl H) as ((N1 & X1) & _).
  destruct (C73_finished n (in_cls i) (in_objs i) cs r0 s' (io_ok _ HI) (io_fits _ HI) Hv Eo Ex Hf B R Fin) as (N2 & X2).
  apply NoDup_Permutation; [exact N1|exact N2|]. intros c. rewrite X1, X2. reflexivity.
Qed.
Print Assumptions C75_same_front.
Theorem C75_same_front_bioptsat : forall I (SP : enc_spec I) i al o E l s n dec_lb s', inst_ok i -> enum_ok i o -> oracle_ok E -> lims_pos l -> inst_vars n (in_cls i) (in_objs i) ->
  first_solve (I := I) al i o E l = Some (Done tt, s) ->
  bf_reaches n (in_cls i) (in_objs i) dec_lb s' -> bf_finished (init_chk (in_cls i) (build_objs 0 (in_objs i))) s' ->
  Permutation (map nd_costs (s_front s)) (map nd_costs (bf_front s')).
Proof.
  intros I SP i al o E l s n dec_lb s' HI HE HO Hl Hv H R Fin. destruct (top_exact SP i o HI HE al E l s HO Hl H) as ((N1 & X1) & _).
  destruct (C74_finished n (in_cls i) (in_objs i) dec_lb s' (io_ok _ HI) (io_fits _ HI) Hv R Fin) as ((N2 & X2) & _).
  apply NoDup_Permutation; [exact N1|exact N2|]. intros c. rewrite X1, X2. reflexivity.
Qed.
Print Assumptions C75_same_front_bioptsat.

(** ** C75: the number of changes of place is bounded *)
Definition pm_turn_bound (at_ : place) (d m : nat) : Prop := match at_ with AtOuter => m <= 3 * d | AtFound _ => m <= 3 * d + 1 | AtBlocked _ => S m <= 3 * d end.
Lemma pm_turns_inv : forall k0 n cls m s s', pm_turns k0 n cls m s s' -> f_at s = AtOuter -> pm_turn_bound (f_at s') (length (r_done (f_r s'))) m.
Proof.
  intros k0 n cls m s s' H Hs. induction H as [s W|m s1 s2 s3 H IH S W E|m s1 s2 s3 H IH S W E]; [rewrite Hs; cbn; lia| |]; specialize (IH Hs);
    destruct S as [at_ r r' F R Ed|r F w Hw|r r' F w R Ed|r F b w A EA Hw HT|r F b A c EA U Ex]; cbn [f_at f_r] in *; try discriminate; try congruence; unfold pm_turn_bound in *.
  all: try rewrite Ed in *; cbn [length] in *; try lia.
Qed.
Theorem C75_turns : forall n cls rs cs r0 m s, Forall obj_ok rs -> Forall obj_fits rs -> inst_vars n cls rs -> map co_obj cs = build_objs 0 rs ->
  (forall c b, In c cs -> pe_extend (co_enc c) b = []) -> enc_fine (k_all (init_chk cls (build_objs 0 rs))) cs ->
  let k0 := init_chk cls (build_objs 0 rs) in
  boosts k0 n (inst_sol n cls) (start_run n cls cs) r0 -> pm_turns k0 n cls m (mkFs AtOuter r0 []) s -> m <= 3 * n_values rs + 1.
Proof.
  intros n cls rs cs r0 m s Hok Hfit Hv Eo Ex Hf k0 B R. pose proof (pm_turns_inv k0 n cls m _ s R eq_refl) as Q.
  assert (R' : pm_runs k0 n cls (mkFs AtOuter r0 []) s) by (apply pm_counted; exists m; exact R).
  pose proof (distinct_costs rs _ (proj1 (C73_candidates n cls rs cs r0 s Hok Hfit Hv Eo Ex Hf B R'))) as L.
  destruct (f_at s); cbn [pm_turn_bound] in Q; lia.
Qed.
Print Assumptions C75_turns.

Section BosTurns.
Variables (p0 p1 : objective) (T0 T1 : nat).
Definition bf_turn_bound (at_ : bplace) (d m : nat) : Prop :=
  match at_ with
  | BoSearch | BoDone => m <= d * (T0 + T1 + 4)
  | BoInc w => m + icost p0 (asg_of w) <= d * (T0 + T1 + 4) + 1 + T0
  | BoDec _ w => m + icost p1 (asg_of w) <= d * (T0 + T1 + 4) + 2 + T0 + T1
  | BoYielded _ => m <= d * (T0 + T1 + 4) + 3 + T0 + T1
  end.
Hypothesis H0 : forall a, icost p0 a <= T0.
Hypothesis H1 : forall a, icost p1 a <= T1.
Lemma bf_turn_step : forall k0 n cls rs o0 o1 dec_lb s s' m m', b_inv k0 n cls rs o0 o1 dec_lb s -> enc_works k0 cls (br_r (bf_s s)) -> bare o0 = bare p0 -> bare o1 = bare p1 ->
  bf_step k0 n cls dec_lb s s' -> (m' = m /\ bf_at s' = bf_at s \/ m' = S m /\ bf_at s' <> bf_at s) ->
  bf_turn_bound (bf_at s) (length (r_done (br_r (bf_s s)))) m -> bf_turn_bound (bf_at s') (length (r_done (br_r (bf_s s')))) m'.
Proof.
  intros k0 n cls rs o0 o1 dec_lb s s' m m' I W B0 B1 St Hm Q. pose proof (bo_run _ _ _ _ (bv_ok _ _ _ _ _ _ _ _ I)) as R. pose proof (bv_two _ _ _ _ _ _ _ _ I) as E2.
  assert (M : m' <= S m) by (destruct Hm as [(-> & _)|(-> & _)]; lia).
  destruct St as [at_ s s' F E Ed|s F x Hw|s F x c0 c1 A x' Ec Hl EA Hw' HT|s F x c0 c1 Ec Hstop|s F inc x c0 c1 A B x' Ec Hl EA EB Hw' HT|s F inc x c0 c1 c Ec Hstop Ex|s s' F b E Ed En|s s' F b E Ed En]; cbn [bf_at bf_s] in *.
  - destruct Hm as [(-> & _)|(_ & X)]; [|contradiction]. rewrite Ed. exact Q.
  - cbn [bf_turn_bound] in *. pose proof (H0 (asg_of x)). lia.
  - cbn [bf_turn_bound] in *. pose proof (enforced k0 n cls (br_r s) c0 _ A x' R W ltac:(rewrite Ec; left; reflexivity) EA Hw' HT) as L.
    rewrite Ec in E2. cbn [map] in E2. assert (E0 : co_obj c0 = o0) by congruence. unfold cost_of in L, Hl. rewrite E0 in L, Hl. rewrite !(bare_icost _ _ (asg_of x) B0) in L, Hl. rewrite !(bare_icost _ _ (asg_of x') B0) in L. lia.
  - cbn [bf_turn_bound] in *. pose proof (H1 (asg_of x)). lia.
  - cbn [bf_turn_bound] in *. assert (TB : lits_true (asg_of x') B) by (intros l Hl'; apply HT; apply in_or_app; right; exact Hl').
    pose proof (enforced k0 n cls (br_r s) c1 _ B x' R W ltac:(rewrite Ec; right; left; reflexivity) EB Hw' TB) as L.
    rewrite Ec in E2. cbn [map] in E2. assert (E1 : co_obj c1 = o1) by congruence. unfold cost_of in L, Hl. rewrite E1 in L, Hl. rewrite !(bare_icost _ _ (asg_of x) B1) in L, Hl. rewrite !(bare_icost _ _ (asg_of x') B1) in L. lia.
  - cbn [bf_turn_bound] in *. lia.
  - rewrite Ed. cbn [bf_turn_bound length] in *. lia.
  - rewrite Ed. cbn [bf_turn_bound length] in *. lia.
Qed.
End BosTurns.
Lemma fop_nodup : forall (A B : Type) (R : A -> A -> Prop) (f : A -> B) l, (forall x y, R x y -> f x <> f y) -> ForallOrdPairs R l -> NoDup (map f l).
Proof.
  intros A B R f l Hd H. induction H as [|x l Hx H IH]; [constructor|]. cbn [map]. constructor; [|exact IH]. intros X. apply in_map_iff in X. destruct X as (y & E & Hy).
  apply (Hd x y (proj1 (Forall_forall _ _) Hx y Hy)). symmetry. exact E.
Qed.
Lemma nodup_below : forall (A : Type) (f : A -> nat) (l : list A) T, NoDup (map f l) -> (forall x, f x <= T) -> length l <= S T.
Proof.
  intros A f l T H L. rewrite <- (map_length f l), <- (seq_length (S T) 0). apply NoDup_incl_length; [exact H|]. intros y Hy. apply in_map_iff in Hy. destruct Hy as (x & <- & _).
  apply in_seq. specialize (L x). lia.
Qed.
(** the runs of C74, counted *)
Definition bf_reaches_in (n : nat) (cls : list clause) (rs : list raw_obj) (dec_lb m : nat) (s : bfstate) : Prop :=
  exists cs r0 e0 e1, map co_obj cs = build_objs 0 rs /\ (forall c b, In c cs -> pe_extend (co_enc c) b = []) /\
    let k0 := init_chk cls (build_objs 0 rs) in
    enc_fine (k_all k0) cs /\ boosts k0 n (inst_sol n cls) (start_run n cls cs) r0 /\ r_cs r0 = [e0; e1] /\
    pe_offset (co_enc e0) = obj_lb (co_obj e0) /\ pe_offset (co_enc e1) = obj_lb (co_obj e1) /\ dec_lb = pe_offset (co_enc e1) /\
    bf_turns k0 n cls dec_lb m (mkBf BoSearch (bos_start r0 (pe_offset (co_enc e0))) []) s.
Lemma reaches_counted : forall n cls rs dec_lb s, bf_reaches n cls rs dec_lb s <-> exists m, bf_reaches_in n cls rs dec_lb m s.
Proof.
  intros n cls rs dec_lb s. split.
  - intros (cs & r0 & e0 & e1 & A & B & C & D & E & F & G & H & R). apply bf_counted in R. destruct R as (m & R). exists m, cs, r0, e0, e1. repeat (split; [assumption|]). exact R.
  - intros (m & cs & r0 & e0 & e1 & A & B & C & D & E & F & G & H & R). exists cs, r0, e0, e1. repeat (split; [assumption|]). apply bf_counted. exists m. exact R.
Qed.
Lemma reaches_two : forall n cls rs dec_lb s, Forall obj_ok rs -> Forall obj_fits rs -> inst_vars n cls rs -> bf_reaches n cls rs dec_lb s -> exists x y, rs = [x; y].
Proof.
  intros n cls rs dec_lb s Hok Hfit Hv H. destruct (reaches_inv n cls rs dec_lb s Hok Hfit Hv H) as (o0 & o1 & A1 & _).
  destruct rs as [|x [|y [|z rs]]]; try discriminate. exists x, y. reflexivity.
Qed.
(** every iteration takes at most [t0 + t1 + 4] changes of place, where [t0] and [t1] are the sums of the weights, and there are at most [min t0 t1 + 1] points *)
Theorem C75_turns_bioptsat : forall n cls ob0 ob1 dec_lb m s, Forall obj_ok [ob0; ob1] -> Forall obj_fits [ob0; ob1] -> inst_vars n cls [ob0; ob1] -> bf_reaches_in n cls [ob0; ob1] dec_lb m s ->
  let t0 := wtotal (fst ob0) in let t1 := wtotal (fst ob1) in
  m <= S (length (bf_front s)) * (t0 + t1 + 4) /\ length (bf_front s) <= S (Nat.min t0 t1).
Proof.
  intros n cls ob0 ob1 dec_lb m s Hok Hfit Hv H t0 t1. set (rs := [ob0; ob1]) in *. set (p0 := obj_new (fst ob0) (snd ob0) 0). set (p1 := obj_new (fst ob1) (snd ob1) 1).
  assert (P : build_objs 0 rs = [p0; p1]) by reflexivity.
  assert (L0 : forall a, icost p0 a <= t0) by (intros a; destruct (icost_total rs 0 p0 a Hok eq_refl) as (r & Er & X); injection Er as <-; exact X).
  assert (L1 : forall a, icost p1 a <= t1) by (intros a; destruct (icost_total rs 1 p1 a Hok eq_refl) as (r & Er & X); injection Er as <-; exact X).
  assert (HR : bf_reaches n cls rs dec_lb s) by (apply reaches_counted; exists m; exact H).
  destruct (reaches_inv n cls rs dec_lb s Hok Hfit Hv HR) as (o0 & o1 & A1 & _ & _ & _ & I & _). rewrite P in A1. cbn [map] in A1.
  assert (B0 : bare o0 = bare p0) by congruence. assert (B1 : bare o1 = bare p1) by congruence.
  pose proof (bv_order _ _ _ _ _ _ _ _ I) as Ord. pose proof (bv_front _ _ _ _ _ _ _ _ I) as Fr.
  assert (LF : length (bf_front s) = length (pend (bf_at s) ++ r_done (br_r (bf_s s)))) by (rewrite Fr, map_length, rev_length; reflexivity).
  split.
  - assert (Q : bf_turn_bound p0 p1 t0 t1 (bf_at s) (length (r_done (br_r (bf_s s)))) m).
    { clear o0 o1 A1 I B0 B1 Ord Fr LF HR. destruct H as (cs & r0 & e0 & e1 & A & B & C & D & E & F & G & H & R). cbv zeta in R.
      remember (mkBf BoSearch (bos_start r0 (pe_offset (co_enc e0))) []) as st eqn:Est.
      assert (Step : forall m s1 s2 m', bf_turns (init_chk cls (build_objs 0 rs)) n cls dec_lb m st s1 -> bf_step (init_chk cls (build_objs 0 rs)) n cls dec_lb s1 s2 ->
        (m' = m /\ bf_at s2 = bf_at s1 \/ m' = S m /\ bf_at s2 <> bf_at s1) -> bf_turn_bound p0 p1 t0 t1 (bf_at s1) (length (r_done (br_r (bf_s s1)))) m ->
        bf_turn_bound p0 p1 t0 t1 (bf_at s2) (length (r_done (br_r (bf_s s2)))) m').
      { intros k s1 s2 k' R1 St Hk Q1. assert (HR : bf_reaches n cls rs dec_lb s1).
        { exists cs, r0, e0, e1. repeat (split; [assumption|]). apply bf_counted. exists k. rewrite <- Est. exact R1. }
        destruct (reaches_inv n cls rs dec_lb s1 Hok Hfit Hv HR) as (o0 & o1 & A1 & _ & _ & _ & I & W). rewrite P in A1. cbn [map] in A1.
        exact (bf_turn_step p0 p1 t0 t1 L0 L1 _ n cls rs o0 o1 dec_lb s1 s2 k k' I W ltac:(congruence) ltac:(congruence) St Hk Q1). }
      clear A B C D E F G H. induction R as [s W|k s1 s2 s3 R IH St W E|k s1 s2 s3 R IH St W E]; [rewrite Est; cbn [bf_at bf_turn_bound]; lia| |]; specialize (IH Est Step).
      - exact (Step k s2 s3 k R St (or_introl (conj eq_refl E)) IH).
      - exact (Step k s2 s3 (S k) R St (or_intror (conj eq_refl E)) IH). }
    rewrite LF, app_length. destruct (bf_at s); cbn [bf_turn_bound pend length] in *; nia.
  - rewrite LF. assert (X0 : length (pend (bf_at s) ++ r_done (br_r (bf_s s))) <= S t0); [|assert (X1 : length (pend (bf_at s) ++ r_done (br_r (bf_s s))) <= S t1); [|lia]].
    + apply (nodup_below _ (fun b => icost p0 (asg_of b))); [|intros b; apply L0]. apply (fop_nodup _ _ (after o0 o1) _ _); [|exact Ord].
      intros x y (X & _). rewrite (bare_icost _ _ (asg_of x) B0), (bare_icost _ _ (asg_of y) B0) in X. lia.
    + apply (nodup_below _ (fun b => icost p1 (asg_of b))); [|intros b; apply L1]. apply (fop_nodup _ _ (after o0 o1) _ _); [|exact Ord].
      intros x y (_ & X). rewrite (bare_icost _ _ (asg_of x) B1), (bare_icost _ _ (asg_of y) B1) in X. lia.
Qed.
Print Assumptions C75_turns_bioptsat.

(** ** Examples *)
(** the instance of the runs in PropFrontProof.v and PropBosFront.v, as an input of the algorithms *)
Definition sm_inst : inst := mkInst PropProof.ex_cls PropProof.ex_rs (mkVm 3 2 2).
Definition sm_inst2 : inst := mkInst PropBosRun.bx_cls PropBosRun.bx_rs (mkVm 4 3 3).
Lemma sm_ok : inst_ok sm_inst.
Proof.
  constructor.
  - cbn. lia.
  - cbn. lia.
  - intros v H. cbn in *. lia.
  - intros r v [<-|[<-|[]]] H; cbn in *; lia.
  - constructor; [|constructor; [|constructor]]; (split; [left; repeat constructor; cbn; intuition discriminate|right; eexists; split; [left; reflexivity|discriminate]]).
  - repeat constructor; vm_compute; intuition discriminate.
Qed.
Lemma sm_ok2 : inst_ok sm_inst2.
Proof.
  constructor.
  - cbn. lia.
  - cbn. lia.
  - intros v H. cbn in *. lia.
  - intros r v [<-|[<-|[]]] H; cbn in *; lia.
  - exact (proj1 bg_ok).
  - exact (proj2 bg_ok).
Qed.
Definition sm_opts : kopts := ExInst.ex_opts NoEnum.
Example sm_plain : option_map (fun x => (fst x, map nd_costs (s_front (snd x)))) (first_solve (I := Inst.CI) ALowerBounding sm_inst sm_opts (Inst.env true 100) lims_none) = Some (Done tt, [[0; 1]; [2; 0]]%Z).
Proof. vm_compute. reflexivity. Qed.
Lemma sm_reaches : pm_reaches 2 (in_cls sm_inst) (in_objs sm_inst) fr_end.
Proof.
  exists (fr_cs 0 false), fr_start. split; [reflexivity|]. split; [intros c b [<-|[<-|[]]]; reflexivity|]. split; [apply fr_fine; [lia|discriminate|intros v Hv; lia]|].
  split; [apply bst_refl|exact fr_run].
Qed.
Example C75_example : forall s, first_solve (I := Inst.CI) ALowerBounding sm_inst sm_opts (Inst.env true 100) lims_none = Some (Done tt, s) ->
  Permutation (map nd_costs (s_front s)) [[2; 0]; [0; 1]]%Z.
Proof.
  intros s H. exact (C75_same_front Inst.CI Inst.CS sm_inst ALowerBounding sm_opts (Inst.env true 100) lims_none s 2 fr_end sm_ok Logic.I (Inst.brute_ok _ _) ExInst.lims_none_pos PropRun.rn_inst H sm_reaches (conj eq_refl (fr_unsat []))).
Qed.
Example sm_plain2 : option_map (fun x => (fst x, map nd_costs (s_front (snd x)))) (first_solve (I := Inst.CI) APMinimal sm_inst2 sm_opts (Inst.env true 100) lims_none) = Some (Done tt, [[0; 1]; [1; 0]]%Z).
Proof. vm_compute. reflexivity. Qed.
Example C75_example_bioptsat : forall s, first_solve (I := Inst.CI) APMinimal sm_inst2 sm_opts (Inst.env true 100) lims_none = Some (Done tt, s) ->
  Permutation (map nd_costs (s_front s)) [[0; 1]; [1; 0]]%Z.
Proof.
  intros s H. exact (C75_same_front_bioptsat Inst.CI Inst.CS sm_inst2 APMinimal sm_opts (Inst.env true 100) lims_none s 3 0 bg_end sm_ok2 Logic.I (Inst.brute_ok _ _) ExInst.lims_none_pos PropBosRun.bx_inst H (bg_reaches _ bg_run) (or_introl eq_refl)).
Qed.
(** the bounds for these runs: 3 * (4 * 2) + 1 and at most 3 points *)
Example C75_bound_example : exists m, pm_turns PropRun.rn_k 2 PropProof.ex_cls m (mkFs AtOuter fr_start []) fr_end /\ m <= 25.
Proof.
  pose proof (proj1 (pm_counted PropRun.rn_k 2 PropProof.ex_cls _ fr_end) fr_run) as (m & R). exists m. split; [exact R|].
  assert (X : forall c b, In c (fr_cs 0 false) -> pe_extend (co_enc c) b = []) by (intros c b [<-|[<-|[]]]; reflexivity).
  exact (C75_turns 2 PropProof.ex_cls PropProof.ex_rs (fr_cs 0 false) fr_start m fr_end (io_ok _ sm_ok) (io_fits _ sm_ok) PropRun.rn_inst eq_refl X (fr_fine _ 0 false ltac:(lia) ltac:(discriminate) ltac:(intros v Hv; lia)) (bst_refl _ _ _ _) R).
Qed.
Example C75_bound_example_bioptsat : exists m, bf_reaches_in 3 PropBosRun.bx_cls PropBosRun.bx_rs 0 m bg_end /\ m <= 24.
Proof.
  pose proof (proj1 (reaches_counted 3 PropBosRun.bx_cls PropBosRun.bx_rs 0 bg_end) (bg_reaches _ bg_run)) as (m & R). exists m. split; [exact R|].
  exact (proj1 (C75_turns_bioptsat 3 PropBosRun.bx_cls _ _ 0 m bg_end (proj1 bg_ok) (proj2 bg_ok) PropBosRun.bx_inst R)).
Qed.
