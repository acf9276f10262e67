(** * C79: the self-check of the Pareto front (feature [check-non-dominance]) *)
From Coq Require Import List Bool Arith Lia ZArith.
From Verif Require Import Base Spec MTypes MKernel MPMinimal MLowerBounding MBiOptSat EncSpec Inst ApiSpec ExInst Kern ApiTop PropFront PropRefuted MCheck.
Import ListNotations.

(** ** What is checked *)
Lemma check_loop : forall c1 c2 d, length c1 = length c2 -> (d = -1 \/ d = 0 \/ d = 1)%Z ->
  check_dom_loop c1 c2 d = true <->
  ((d <= 0)%Z /\ weakly_dominates c1 c2 /\ (d = -1 \/ c1 <> c2)%Z) \/ ((0 <= d)%Z /\ weakly_dominates c2 c1 /\ (d = 1 \/ c1 <> c2)%Z).
Proof.
  unfold weakly_dominates. induction c1 as [|x c1 IH]; intros [|y c2] d L Hd; try discriminate L.
  - cbn [check_dom_loop]. rewrite negb_true_iff, Z.eqb_neq. split.
    + intros H. destruct Hd as [-> | [-> | ->]]; [left|contradiction|right]; (split; [lia|]; split; [constructor|left; reflexivity]).
    + intros [(_ & _ & [H|H])|(_ & _ & [H|H])]; try lia; exfalso; apply H; reflexivity.
  - injection L as L. cbn [check_dom_loop]. destruct (Z.ltb_spec x y) as [Hxy|Hxy].
    + destruct (Z.leb_spec d 0) as [H0|H0].
      * rewrite (IH c2 (-1)%Z L (or_introl eq_refl)). split.
        -- intros [(_ & W & _)|(H & _)]; [|lia]. left. split; [exact H0|]. split; [constructor; [lia|exact W]|]. right. intros E. injection E as E _. lia.
        -- intros [(_ & W & _)|(_ & W & _)]; inversion W; subst; [|lia]. left. split; [lia|]. split; [assumption|left; reflexivity].
      * split; [discriminate|]. intros [(H & _)|(_ & W & _)]; [lia|inversion W; subst; lia].
    + destruct (Z.ltb_spec y x) as [Hyx|Hyx].
      * destruct (Z.leb_spec 0 d) as [H0|H0].
        -- rewrite (IH c2 1%Z L (or_intror (or_intror eq_refl))). split.
           ++ intros [(H & _)|(_ & W & _)]; [lia|]. right. split; [exact H0|]. split; [constructor; [lia|exact W]|]. right. intros E. injection E as E _. lia.
           ++ intros [(_ & W & _)|(_ & W & _)]; inversion W; subst; [lia|]. right. split; [lia|]. split; [assumption|left; reflexivity].
        -- split; [discriminate|]. intros [(_ & W & _)|(H & _)]; [inversion W; subst; lia|lia].
      * assert (x = y) by lia. subst y. rewrite (IH c2 d L Hd). split.
        -- intros [(H & W & N)|(H & W & N)]; [left|right]; (split; [exact H|]; split; [constructor; [lia|exact W]|]; destruct N as [N|N]; [left; exact N|right; intros E; injection E as E; contradiction]).
        -- intros [(H & W & N)|(H & W & N)]; [left|right]; (split; [exact H|]; inversion W; subst; split; [assumption|]; destruct N as [N|N]; [left; exact N|right; intros E; apply N; f_equal; exact E]).
Qed.
(** For vectors of the same length the closure tells whether one dominates the other. *)
Theorem C79_check : forall c1 c2, length c1 = length c2 -> check_dominated c1 c2 = true <-> dominates c1 c2 \/ dominates c2 c1.
Proof.
  intros c1 c2 L. unfold check_dominated. rewrite (check_loop c1 c2 0%Z L (or_intror (or_introl eq_refl))). unfold dominates. split.
  - intros [(_ & W & [N|N])|(_ & W & [N|N])]; try lia; [left; split; assumption|right; split; [exact W|intros E; apply N; symmetry; exact E]].
  - intros [(W & N)|(W & N)]; [left|right]; (split; [lia|]; split; [exact W|right]); [exact N|intros E; apply N; symmetry; exact E].
Qed.
Print Assumptions C79_check.
(** One point is accepted exactly if it is new and neither dominates nor is dominated by a point of the front; it is then added at the end. *)
Theorem C79_extend : forall (S : Type) n (f f' : front S) nd, (forall p, In p (nd :: f) -> length (nd_costs p) = n) ->
  checked_extend f [nd] = Some f' <->
  f' = f ++ [nd] /\ forall p, In p f -> nd_costs p <> nd_costs nd /\ ~ dominates (nd_costs p) (nd_costs nd) /\ ~ dominates (nd_costs nd) (nd_costs p).
Proof.
  intros S n f f' nd L. unfold checked_extend. cbn [forallb]. rewrite andb_true_r.
  assert (Q : point_passes (map nd_costs f) nd = true <->
    forall p, In p f -> nd_costs p <> nd_costs nd /\ ~ dominates (nd_costs p) (nd_costs nd) /\ ~ dominates (nd_costs nd) (nd_costs p)).
  { unfold point_passes. rewrite andb_true_iff, forallb_forall, negb_true_iff, <- not_true_iff_false, existsb_exists. split.
    - intros (H1 & H2) p Hp. specialize (H1 (nd_costs p) (in_map nd_costs f p Hp)). rewrite negb_true_iff, <- not_true_iff_false in H1.
      rewrite (C79_check _ _ (eq_trans (L nd (or_introl eq_refl)) (eq_sym (L p (or_intror Hp))))) in H1. split; [|tauto].
      intros E. apply H2. exists (nd_costs p). split; [apply in_map; exact Hp|]. destruct (list_eq_dec Z.eq_dec (nd_costs p) (nd_costs nd)); [reflexivity|contradiction].
    - intros H. split.
      + intros c Hc. apply in_map_iff in Hc. destruct Hc as (p & <- & Hp). rewrite negb_true_iff, <- not_true_iff_false.
        rewrite (C79_check _ _ (eq_trans (L nd (or_introl eq_refl)) (eq_sym (L p (or_intror Hp))))). specialize (H p Hp). tauto.
      + intros (c & Hc & E). apply in_map_iff in Hc. destruct Hc as (p & <- & Hp). destruct (list_eq_dec Z.eq_dec (nd_costs p) (nd_costs nd)) as [E'|N]; [|discriminate].
        exact (proj1 (H p Hp) E'). }
  destruct (point_passes _ nd).
  - split; [intros H; injection H as <-; split; [reflexivity|apply Q; reflexivity]|intros (-> & _); reflexivity].
  - split; [discriminate|]. intros (_ & H). apply Q in H. discriminate.
Qed.
Print Assumptions C79_extend.

(** ** Runs with the feature *)
Lemma pushes_ok : forall (S : Type) n (new f : front S), (forall p, In p (f ++ new) -> length (nd_costs p) = n) -> NoDup (map nd_costs (f ++ new)) ->
  (forall p q, In p (f ++ new) -> In q (f ++ new) -> ~ dominates (nd_costs p) (nd_costs q)) -> checked_pushes f new = Some (f ++ new).
Proof.
  intros S n. induction new as [|nd new IH]; intros f L N D; cbn [checked_pushes]; [rewrite app_nil_r; reflexivity|].
  assert (E : checked_extend f [nd] = Some (f ++ [nd])).
  { apply (C79_extend S n). { intros p [<-|Hp]; apply L, in_or_app; [right; left; reflexivity|left; exact Hp]. }
    split; [reflexivity|]. intros p Hp. assert (Ip : In p (f ++ nd :: new)) by (apply in_or_app; left; exact Hp). assert (In_ : In nd (f ++ nd :: new)) by (apply in_or_app; right; left; reflexivity).
    split; [|split; apply D; assumption]. rewrite map_app in N. cbn [map] in N. intros Eq. apply NoDup_remove_2 in N. apply N. apply in_or_app. left. rewrite <- Eq. apply in_map. exact Hp. }
  rewrite E. rewrite (IH (f ++ [nd])); rewrite <- !app_assoc; cbn [app]; auto.
Qed.
Lemma optimal_no_dom : forall cls rs c d, pareto_optimal cls rs c -> pareto_optimal cls rs d -> ~ dominates c d.
Proof. intros cls rs c d ((a & Ha & <-) & _) (_ & H). exact (H a Ha). Qed.
Lemma sound_passes : forall i f, sound_front i f -> checked_pushes [] f = Some f.
Proof.
  intros i f (N & F). rewrite Forall_forall in F. apply (pushes_ok assignment (length (in_objs i)) f []); cbn [app]; [|exact N|].
  - intros p Hp. destruct (F p Hp) as (((a & _ & <-) & _) & _). unfold costs. apply map_length.
  - intros p q Hp Hq. exact (optimal_no_dom _ _ _ _ (proj1 (F p Hp)) (proj1 (F q Hq))).
Qed.
(** P-minimal and lower-bounding without enumeration, any history of calls with any stops: all checks pass. So the feature only costs time. *)
Theorem C79_histories : forall I (SP : enc_spec I) al i o h (s : st I), inst_ok i -> o_enum o = NoEnum -> al <> ABiOptSat ->
  alg_new al i o = Some s -> run_ok h -> checked_pushes [] (s_front (run al h s)) = Some (s_front (run al h s)).
Proof. intros I SP al i o h s HI Hn Ha Hs Hh. apply (sound_passes i). apply (top_history SP i o HI al); auto. Qed.
Print Assumptions C79_histories.
(** All algorithms, any enumeration, the first call, however it ends *)
Theorem C79_first_call : forall I (SP : enc_spec I) al i o E l (s : st I), inst_ok i -> enum_ok i o -> alg_new al i o = Some s -> oracle_ok E -> lims_pos l ->
  checked_pushes [] (s_front (snd (alg_solve al E l s))) = Some (s_front (snd (alg_solve al E l s))).
Proof. intros I SP al i o E l s HI He Hs HO Hl. apply (sound_passes i). exact (top_sound SP i o HI He al s Hs E l HO Hl). Qed.
Print Assumptions C79_first_call.
(** Calling BiOptSat a second time trips the check; so does continuing a stopped enumeration of P-minimal (the faults of C42 and C40). *)
Theorem C79_bioptsat_again_refuted : exists (i : inst) (o : kopts) (E : environ) (s : st CI), inst_ok i /\ o_enum o = NoEnum /\ oracle_ok E /\
  alg_new ABiOptSat i o = Some s /\ checked_pushes [] (s_front (run ABiOptSat [Solve E lims_none; Solve E lims_none] s)) = None.
Proof.
  assert (H : match alg_new (I := CI) ABiOptSat ex_inst (ex_opts NoEnum) with Some s =>
    checked_pushes [] (s_front (run ABiOptSat [Solve ex_env lims_none; Solve ex_env lims_none] s)) = None | None => False end) by (vm_compute; reflexivity).
  destruct (alg_new (I := CI) ABiOptSat ex_inst (ex_opts NoEnum)) as [s|] eqn:Es; [|contradiction]. exists ex_inst, (ex_opts NoEnum), ex_env, s.
  split; [apply ex_ok|]. split; [reflexivity|]. split; [apply brute_ok|]. split; [exact Es|exact H].
Qed.
Print Assumptions C79_bioptsat_again_refuted.
Theorem C79_resume_refuted : exists (i : inst) (o : kopts) (E1 E2 : environ) (s : st CI), inst_ok i /\ enum_ok i o /\ oracle_ok E1 /\ oracle_ok E2 /\
  alg_new APMinimal i o = Some s /\ checked_pushes [] (s_front (run APMinimal [Solve E1 (mkLims (Some 1) None None None); Solve E2 lims_none] s)) = None.
Proof.
  assert (H : match alg_new (I := CI) APMinimal ex_inst (ex_opts (Solutions None)) with Some s =>
    checked_pushes [] (s_front (run APMinimal [Solve ex_env' (mkLims (Some 1) None None None); Solve ex_env lims_none] s)) = None | None => False end) by (vm_compute; reflexivity).
  destruct (alg_new (I := CI) APMinimal ex_inst (ex_opts (Solutions None))) as [s|] eqn:Es; [|contradiction]. exists ex_inst, (ex_opts (Solutions None)), ex_env', ex_env, s.
  split; [apply ex_ok|]. split; [apply ex_enum|]. split; [apply brute_ok|]. split; [apply brute_ok|]. split; [exact Es|exact H].
Qed.
Print Assumptions C79_resume_refuted.
(** The set of costs is not updated while points are pushed: points handed over in one call are not compared with each other. *)
Theorem C79_one_call_refuted : exists (p q r : nd_point assignment), nd_costs p = nd_costs q /\ dominates (nd_costs p) (nd_costs r) /\ checked_extend [] [p; q; r] = Some [p; q; r].
Proof.
  exists (mkNd [0; 1]%Z []), (mkNd [0; 1]%Z []), (mkNd [0; 2]%Z []). split; [reflexivity|]. split; [split; [repeat constructor; lia|discriminate]|reflexivity].
Qed.
Print Assumptions C79_one_call_refuted.
(** The check tells dominated, equal and incomparable points apart. *)
Example C79_example : checked_extend [mkNd [1; 1]%Z []; mkNd [3; 0]%Z []] [mkNd [2; 2]%Z ([] : list assignment)] = None /\
  checked_extend [mkNd [1; 1]%Z []; mkNd [3; 0]%Z []] [mkNd [0; 1]%Z ([] : list assignment)] = None /\
  checked_extend [mkNd [1; 1]%Z []; mkNd [3; 0]%Z []] [mkNd [3; 0]%Z ([] : list assignment)] = None /\
  checked_extend [mkNd [1; 1]%Z []; mkNd [3; 0]%Z []] [mkNd [5; -1]%Z ([] : list assignment)] = Some [mkNd [1; 1]%Z []; mkNd [3; 0]%Z []; mkNd [5; -1]%Z []].
Proof. repeat split. Qed.
Example C79_run_example : option_map (fun s => option_map (map nd_costs) (checked_pushes [] (s_front (run APMinimal ex_hist s)))) (alg_new (I := CI) APMinimal ex_inst (ex_opts NoEnum)) =
  Some (Some [[3; 0]; [5; -1]; [1; 1]]%Z).
Proof. vm_compute. reflexivity. Qed.
