(** * A run with tightening is a run without, for another oracle *)
From Coq Require Import List Bool Arith Lia ZArith.
From Verif Require Import Base BaseLemmas Spec MTypes MKernel MPMinimal MLowerBounding MBiOptSat EncSpec Sem Kern Ext Init Blk ApiSpec Api ApiTop CbSpec CbApi
  MTight InproSpec InproThm TightSpec TightThm MTightAlg TightAlgSpec TightRun.
Import ListNotations.

Section Sim.
  Context {I : enc_impl}.
  Notation M := (M I).
  Notation st := (st I).
  Variables (E : environ) (F : flipper) (w : heur_when) (i : inst).
  Hypothesis HE : oracle_ok E.
  Hypothesis HFl : flipper_ok (in_objs i) F.
  Hypothesis HO : plain_objs i.
  Hypothesis HN : not_shared (in_objs i).
  (** the objectives that the solver has now; core boosting changes their lower bounds *)
  Variable os : list objective.
  Hypothesis HOS : map obj_iter os = map obj_iter (build_objs 0 (in_objs i)).

  Definition env (O : query -> answer) : environ := mkEnv O (ev_flag E) (ev_logfail E) (ev_fuel E).
  Definition ok (O : query -> answer) : Prop := oracle_ok (env O) /\
    ((forall q, ev_oracle E q <> AErr) -> forall q, O q <> AErr).
  Definition agree (n : nat) (O1 O2 : query -> answer) : Prop := forall q, n <= q_call q -> O1 q = O2 q.
  Definition P (s : st) : Prop := p_objs (s_prob s) = os /\ n_objs (s_stats s) = length os.

  (** From every state, the run of [c] is the run of [p] for some correct oracle; which answers that
      oracle gives in later calls can be chosen first. *)
  Record rel {A} (c : M A) (p : (query -> answer) -> M A) : Prop := mkRel {
    re_run : forall s, P s -> P (snd (c s)) /\ s_calls s <= s_calls (snd (c s)) /\
      forall O2, ok O2 -> exists O1, ok O1 /\ agree (s_calls (snd (c s))) O1 O2 /\ p O1 s = c s;
    re_local : forall O1 O2 s, agree (s_calls s) O1 O2 -> p O1 s = p O2 s;
    re_mono : forall O s, s_calls s <= s_calls (snd (p O s)) }.

  Lemma agree_le n m O1 O2 : n <= m -> agree n O1 O2 -> agree m O1 O2.
  Proof. intros H A q Hq. apply A. lia. Qed.
  Lemma agree_trans n O1 O2 O3 : agree n O1 O2 -> agree n O2 O3 -> agree n O1 O3.
  Proof. intros A B q Hq. now rewrite A, B. Qed.

  Lemma r_ext {A} (c c' : M A) (p p' : (query -> answer) -> M A) : (forall s, c s = c' s) -> (forall O s, p O s = p' O s) ->
    rel c' p' -> rel c p.
  Proof.
    intros H1 H2 [R L Mo]. split.
    - intros s Hs. rewrite H1. destruct (R s Hs) as (R1 & R2 & R3). split; [exact R1|]. split; [exact R2|].
      intros O2 H. destruct (R3 O2 H) as (O1 & Q1 & Q2 & Q3). exists O1. rewrite H2. auto.
    - intros O1 O2 s H. rewrite !H2. auto.
    - intros O s. rewrite H2. apply Mo.
  Qed.
  Lemma r_bind {A B} (c : M A) p (k : A -> M B) kp : rel c p -> (forall a, rel (k a) (fun O => kp O a)) ->
    rel (bind c k) (fun O => bind (p O) (kp O)).
  Proof.
    intros [R L Mo] K. split.
    - intros s Hs. destruct (R s Hs) as (R1 & R2 & R3). unfold bind at 1 2 3 5. revert R1 R2 R3.
      destruct (c s) as [[a|x] s1] eqn:e; cbn [snd]; intros R1 R2 R3.
      + destruct (K a) as [KR KL KM]. destruct (KR s1 R1) as (K1 & K2 & K3). split; [exact K1|]. split; [lia|].
        intros O2 H2. destruct (K3 O2 H2) as (O1 & Q1 & Q2 & Q3). destruct (R3 O1 Q1) as (O0 & S1 & S2 & S3).
        exists O0. split; [exact S1|]. split; [eapply agree_trans; [eapply agree_le; [|exact S2]; exact K2|exact Q2]|].
        unfold bind. rewrite S3. rewrite <- Q3. now apply KL.
      + split; [exact R1|]. split; [exact R2|]. intros O2 H2. destruct (R3 O2 H2) as (O1 & Q1 & Q2 & Q3).
        exists O1. split; [exact Q1|]. split; [exact Q2|]. unfold bind. now rewrite Q3.
    - intros O1 O2 s H. unfold bind. rewrite (L O1 O2 s H). pose proof (Mo O2 s) as Hm.
      destruct (p O2 s) as [[a|x] s1]; [|reflexivity]. apply (re_local _ _ (K a)). cbn [snd] in Hm. eapply agree_le; eauto.
    - intros O s. unfold bind. pose proof (Mo O s) as Hm. destruct (p O s) as [[a|x] s1]; cbn [snd] in Hm; [|exact Hm].
      pose proof (re_mono _ _ (K a) O s1). cbn beta in *. lia.
  Qed.
  Lemma r_catch {A} (c : M A) p : rel c p -> rel (catch c) (fun O => catch (p O)).
  Proof.
    intros [R L Mo].
    assert (Sn : forall (d : M A) s, snd (catch d s) = snd (d s)).
    { intros d s. unfold catch. destruct (d s) as [[a|[]] s1]; reflexivity. }
    split.
    - intros s Hs. rewrite !Sn. destruct (R s Hs) as (R1 & R2 & R3). split; [exact R1|]. split; [exact R2|].
      intros O2 H2. destruct (R3 O2 H2) as (O1 & Q1 & Q2 & Q3). exists O1. unfold catch. rewrite Q3. auto.
    - intros O1 O2 s H. unfold catch. now rewrite (L O1 O2 s H).
    - intros O s. rewrite Sn. apply Mo.
  Qed.
  Lemma r_loop_n {S A} (b : S -> M (S + A)) pb : (forall x, rel (b x) (fun O => pb O x)) ->
    forall n x, rel (loop n b x) (fun O => loop n (pb O) x).
  Proof.
    intros H. assert (T : forall (x : exit), rel (throw (A := A) x) (fun _ => throw x)).
    { intros x. split; [|reflexivity|intros; cbn; lia]. intros s Hs. cbn. split; [exact Hs|]. split; [lia|].
      intros O2 H2. exists O2. split; [exact H2|]. split; [intros q _; reflexivity|reflexivity]. }
    assert (U : forall a : A, rel (ret a) (fun _ => ret a)).
    { intros x. split; [|reflexivity|intros; cbn; lia]. intros s Hs. cbn. split; [exact Hs|]. split; [lia|].
      intros O2 H2. exists O2. split; [exact H2|]. split; [intros q _; reflexivity|reflexivity]. }
    induction n as [|n IH]; intros x; cbn [loop]; [apply T|]. apply (r_bind _ (fun O => pb O x)); [apply H|].
    intros [x'|a]; [apply IH|apply U].
  Qed.

  (** ** Programs that make no call *)
  Definition quiet {A} (c : M A) : Prop := forall s,
    s_calls (snd (c s)) = s_calls s /\ p_objs (s_prob (snd (c s))) = p_objs (s_prob s) /\
    n_objs (s_stats (snd (c s))) = n_objs (s_stats s).
  Lemma r_quiet {A} (c : M A) : quiet c -> rel c (fun _ => c).
  Proof.
    intros H. split; [|reflexivity|].
    - intros s [P1 P2]. destruct (H s) as (H1 & H2 & H3). split; [split; congruence|]. split; [lia|].
      intros O2 HO2. exists O2. split; [exact HO2|]. split; [intros q _; reflexivity|reflexivity].
    - intros O s. rewrite (proj1 (H s)). lia.
  Qed.
  Lemma q_ret {A} (a : A) : quiet (ret a).
  Proof. intros s. cbn. auto. Qed.
  Lemma q_throw {A} x : quiet (throw (A := A) x).
  Proof. intros s. cbn. auto. Qed.
  Lemma q_bind {A B} (c : M A) (k : A -> M B) : quiet c -> (forall a, quiet (k a)) -> quiet (bind c k).
  Proof.
    intros H K s. unfold bind. specialize (H s). destruct (c s) as [[a|x] s1]; cbn [snd] in H; [|exact H].
    destruct H as (H1 & H2 & H3). destruct (K a s1) as (K1 & K2 & K3). rewrite K1, K2, K3. auto.
  Qed.
  Lemma q_catch {A} (c : M A) : quiet c -> quiet (catch c).
  Proof. intros H s. specialize (H s). unfold catch. destruct (c s) as [[a|[]] s1]; exact H. Qed.
  Lemma q_gets {A} (f : st -> A) : quiet (gets f).
  Proof. intros s. cbn. auto. Qed.
  Lemma q_modify f : (forall s, s_calls (f s) = s_calls s) -> (forall s, p_objs (s_prob (f s)) = p_objs (s_prob s)) ->
    (forall s, n_objs (s_stats (f s)) = n_objs (s_stats s)) -> quiet (modify f).
  Proof. intros H1 H2 H3 s. cbn. rewrite H1, H2, H3. auto. Qed.
  Lemma q_guard b : quiet (guard b).
  Proof. destruct b; [apply q_ret|apply q_throw]. Qed.
  Lemma q_unwrap {A} (o : option A) : quiet (unwrap o).
  Proof. destruct o; [apply q_ret|apply q_throw]. Qed.
  Lemma q_or_err {A} e (o : option A) : quiet (or_err e o).
  Proof. destruct o; [apply q_ret|apply q_throw]. Qed.
  Lemma q_forM {A} (f : A -> M unit) l : (forall a, quiet (f a)) -> quiet (forM f l).
  Proof. intros H. induction l; cbn [forM]; [apply q_ret|apply q_bind; auto]. Qed.
  Lemma q_mapM {A B} (f : A -> M B) l : (forall a, quiet (f a)) -> quiet (mapM f l).
  Proof.
    intros H. induction l; cbn [mapM]; [apply q_ret|apply q_bind; auto]. intros b. apply q_bind; [exact IHl|].
    intros bs. apply q_ret.
  Qed.
  Lemma q_emit ev : quiet (emit E ev).
  Proof. intros s. unfold emit. destruct (s_logger s); [destruct (ev_logfail _ _)|]; cbn; auto. Qed.
  Lemma q_check : quiet (check_termination E).
  Proof. intros s. unfold check_termination. destruct (ev_flag _ _); cbn; auto. Qed.
  Lemma q_tick g p t : quiet (tick g p t).
  Proof. intros s. unfold tick. destruct (g (s_lims s)) as [[|n]|]; [|destruct (n =? 0)|]; cbn; auto. Qed.
  Ltac qmod := apply q_modify; reflexivity.
  Ltac qgo := repeat first
    [ apply q_ret | apply q_throw | apply q_guard | apply q_unwrap | apply q_or_err | apply q_emit | apply q_check | apply q_tick
    | apply q_gets | qmod | (apply q_bind; [|intros ?]) ].
  Lemma q_candidate cs ph : quiet (log_candidate E cs ph).
  Proof. unfold log_candidate. qgo. Qed.
  Lemma q_ocall r : quiet (log_oracle_call E r).
  Proof. unfold log_oracle_call. qgo. Qed.
  Lemma q_sol : quiet (log_solution E).
  Proof. unfold log_solution. qgo. Qed.
  Lemma q_nd p : quiet (log_non_dominated E p).
  Proof. unfold log_non_dominated. qgo. Qed.
  Lemma q_add_clause c : quiet (add_clause c).
  Proof. unfold add_clause. qmod. Qed.
  Lemma q_add_clauses cs : quiet (add_clauses cs).
  Proof. apply q_forM, q_add_clause. Qed.
  Lemma q_get_cost j sol : quiet (get_cost j sol).
  Proof. unfold get_cost. qgo. Qed.
  Lemma q_get_costs n sol : quiet (get_costs n sol).
  Proof. apply q_mapM. intros j. apply q_get_cost. Qed.
  Lemma q_get_enc j : quiet (get_enc j).
  Proof. unfold get_enc. qgo. Qed.
  Lemma q_extend j lo hi : quiet (extend_encoding j lo hi).
  Proof.
    unfold extend_encoding. apply q_bind; [apply q_get_enc|]. intros e. apply q_bind; [apply q_gets|]. intros n.
    destruct (oe_encode_ub e lo hi n) as [[e' cl] n']. apply q_bind; [qmod|]. intros _. apply q_add_clauses.
  Qed.
  Lemma q_new_var : quiet new_var.
  Proof. unfold new_var. qgo. Qed.
  Lemma q_solution : quiet oracle_solution.
  Proof. unfold oracle_solution. qgo. destruct a1; qgo. Qed.
  Lemma q_core : quiet oracle_core.
  Proof. unfold oracle_core. qgo. destruct a; qgo. Qed.
  Lemma q_sol_costs : quiet get_solution_and_internal_costs.
  Proof.
    unfold get_solution_and_internal_costs. apply q_bind; [apply q_solution|]. intros sol.
    apply q_bind; [apply q_gets|]. intros n. apply q_bind; [apply q_get_costs|]. intros cs. qgo.
  Qed.
  Lemma q_unphase : quiet unphase_solution.
  Proof. unfold unphase_solution. apply q_bind; [apply q_gets|]. intros []; qgo. Qed.
  Lemma q_external cs : quiet (externalize_internal_costs cs).
  Proof. unfold externalize_internal_costs. qgo. Qed.
  Lemma q_finish p : quiet (yield_finish E p).
  Proof.
    unfold yield_finish. apply q_bind; [apply q_catch, q_nd|]. intros t. apply q_bind; [unfold front_push; qmod|]. intros _.
    apply q_bind; [apply q_emit|]. intros _. destruct t; qgo.
  Qed.

  (** ** Calls *)
  Definition patch (n : nat) (A O2 : query -> answer) : query -> answer :=
    fun q => if q_call q <=? n then A q else O2 q.
  Lemma patch_ok n A O2 : ok A -> ok O2 -> ok (patch n A O2).
  Proof.
    intros [H1 K1] [H2 K2]. split.
    - intros q. unfold patch. cbn [env ev_oracle]. destruct (q_call q <=? n); [apply (H1 q)|apply (H2 q)].
    - intros H q. unfold patch. destruct (q_call q <=? n); auto.
  Qed.
  Lemma patch_agree n A O2 : agree (S n) (patch n A O2) O2.
  Proof. intros q Hq. unfold patch. replace (q_call q <=? n) with false by (symmetry; apply Nat.leb_gt; lia). reflexivity. Qed.
  Lemma patch_now n A O2 q : q_call q = n -> patch n A O2 q = A q.
  Proof. intros <-. unfold patch. now rewrite Nat.leb_refl. Qed.
  Lemma E_ok : ok (ev_oracle E).
  Proof. split; [intros q; exact (HE q)|auto]. Qed.

  (** the part after the answer does not look at the model *)
  Definition frame {A} (c : M A) : Prop := forall s o, c (set_ora o s) = (fst (c s), set_ora o (snd (c s))).
  Lemma f_ret {A} (a : A) : frame (ret a).
  Proof. intros s o. reflexivity. Qed.
  Lemma f_throw {A} x : frame (throw (A := A) x).
  Proof. intros s o. reflexivity. Qed.
  Lemma f_bind {A B} (c : M A) (k : A -> M B) : frame c -> (forall a, frame (k a)) -> frame (bind c k).
  Proof. intros H K s o. unfold bind. rewrite H. destruct (c s) as [[a|x] s1]; cbn [fst snd]; [apply K|reflexivity]. Qed.
  Lemma f_emit ev : frame (emit E ev).
  Proof. intros s o. unfold emit. cbn [set_ora s_logger s_trace]. destruct (s_logger s); [destruct (ev_logfail _ _)|]; reflexivity. Qed.
  Lemma f_check : frame (check_termination E).
  Proof. intros s o. unfold check_termination. cbn [set_ora s_flags]. destruct (ev_flag _ _); reflexivity. Qed.
  Lemma f_ocall r : frame (log_oracle_call E r).
  Proof.
    unfold log_oracle_call. apply f_bind; [intros s o; reflexivity|intros _]. apply f_bind; [apply f_emit|intros _].
    intros s o. unfold tick. cbn [set_ora s_lims]. destruct (l_oracle_calls (s_lims s)) as [[|n]|]; [reflexivity|destruct (n =? 0); reflexivity|reflexivity].
  Qed.
  Lemma bind_eq {A B} (c : M A) (k : A -> M B) s :
    bind c k s = match c s with (Done a, s') => k a s' | (Exit x, s') => (Exit x, s') end.
  Proof. reflexivity. Qed.
  Lemma gets_eq {A B} (f : st -> A) (k : A -> M B) s : bind (gets f) k s = k (f s) s.
  Proof. reflexivity. Qed.
  Lemma some_eq {A B} (x : A) (k : A -> M B) s : bind (unwrap (Some x)) k s = k x s.
  Proof. reflexivity. Qed.
  Lemma true_eq {B} (k : unit -> M B) s : bind (guard true) k s = k tt s.
  Proof. reflexivity. Qed.
  Lemma set_ora_same (s : st) : set_ora (s_ora s) s = s.
  Proof. destruct s; reflexivity. Qed.
  Lemma set_ora_twice o o' (s : st) : set_ora o (set_ora o' s) = set_ora o s.
  Proof. reflexivity. Qed.

  (** what follows the answer: [G] looks at the answer, but not at the model *)
  Definition after (G : sres -> M unit) (r : sres) : M sres :=
    log_end E ;;; check_termination E ;;; log_oracle_call E r ;;; G r ;;; ret r.
  Lemma f_after G r : (forall r, frame (G r)) -> frame (after G r).
  Proof.
    intros H. unfold after. apply f_bind; [apply f_emit|intros _]. apply f_bind; [apply f_check|intros _].
    apply f_bind; [apply f_ocall|intros _]. apply f_bind; [apply H|intros _]. apply f_ret.
  Qed.
  Lemma q_after G r : (forall r, quiet (G r)) -> quiet (after G r).
  Proof.
    intros H. unfold after. apply q_bind; [apply q_emit|intros _]. apply q_bind; [apply q_check|intros _].
    apply q_bind; [apply q_ocall|intros _]. apply q_bind; [apply H|intros _]. apply q_ret.
  Qed.
  Lemma after_val G r s r' s' : after G r s = (Done r', s') -> r' = r.
  Proof.
    unfold after, bind. destruct (log_end E s) as [[u|x] s1]; [|discriminate]. destruct (check_termination E s1) as [[u1|x] s2]; [|discriminate].
    destruct (log_oracle_call E r s2) as [[u2|x] s3]; [|discriminate]. destruct (G r s3) as [[u3|x] s4]; [|discriminate].
    intros H. now injection H as <- _.
  Qed.

  Definition qof (a : list lit) (s : st) : query := mkQuery (s_calls s) (s_flags s) false (p_cls (s_prob s)) a.
  Definition unit_of_res {X} (x : M X) : sres -> M (sres * option X) :=
    fun r => match r with RUnsat => ret (r, None) | _ => y <- x ;; ret (r, Some y) end.
  (** a call, what follows it, and then reading the model: with tightening and without *)
  Definition site_t {X} (G : sres -> M unit) (a : list lit) (gt : query -> M X) : M (sres * option X) :=
    q <- this_query a ;;
    log_start E RtOracleCall ;;; r <- oracle_solve E false a ;; r' <- after G r ;; unit_of_res (gt q) r'.
  Definition site {X} (G : sres -> M unit) (a : list lit) (g : M X) (O : query -> answer) : M (sres * option X) :=
    log_start E RtOracleCall ;;; r <- oracle_solve (env O) false a ;; r' <- after G r ;; unit_of_res g r'.

  (** what tightening has to do *)
  Definition reads {X} (gt : query -> M X) (g : M X) : Prop := quiet g /\
    forall q s, P s ->
      (exists m m' x, s_ora s = OModel m /\ (sat m (q_cls q) /\ lits_true m (q_assumps q) ->
         sat m' (q_cls q) /\ lits_true m' (q_assumps q) /\
         gt q s = (Done x, set_ora (OModel m') s) /\ g (set_ora (OModel m') s) = (Done x, set_ora (OModel m') s))) \/
      (exists x, gt q s = (x, s) /\ g s = (x, s)).

  Definition modelsb (m : asg) (q : query) : bool :=
    forallb (clause_true m) (q_cls q) && forallb (lit_true m) (q_assumps q).
  Lemma modelsb_ok m q : modelsb m q = true <-> sat m (q_cls q) /\ lits_true m (q_assumps q).
  Proof.
    unfold modelsb. rewrite andb_true_iff, !forallb_forall. unfold sat, lits_true. rewrite ?Forall_forall. tauto.
  Qed.
  Definition answer_with (m : asg) : query -> answer := fun q => if modelsb m q then ASat m else ev_oracle E q.
  Lemma answer_with_ok m : ok (answer_with m).
  Proof.
    split.
    - intros q. cbn [env ev_oracle]. unfold answer_with. destruct (modelsb m q) eqn:e; [|exact (HE q)].
      apply modelsb_ok in e. exact e.
    - intros H q. unfold answer_with. destruct (modelsb m q); [discriminate|apply H].
  Qed.

  Lemma r_site {X} (G : sres -> M unit) a (gt : query -> M X) g : (forall r, quiet (G r)) -> (forall r, frame (G r)) -> reads gt g ->
    rel (site_t G a gt) (site G a g).
  Proof.
    intros HQ HF [Hg Hr].
    assert (QU : forall r, quiet (unit_of_res g r)).
    { intros r. destruct r; cbn [unit_of_res]; [|apply q_ret|]; (apply q_bind; [exact Hg|intros ?; apply q_ret]). }
    assert (QK : forall r, quiet (r' <- after G r ;; unit_of_res g r')).
    { intros r. apply q_bind; [apply q_after, HQ|intros r']. apply QU. }
    split.
    2:{ intros O1 O2 s H. unfold site. rewrite !(bind_eq (log_start E RtOracleCall)). pose proof (q_emit (EvStart RtOracleCall) s) as Q. unfold log_start.
        destruct (emit E (EvStart RtOracleCall) s) as [[u|x] s0]; [|reflexivity]. cbn [snd] in Q.
        rewrite (bind_eq (oracle_solve (env O1) false a)), (bind_eq (oracle_solve (env O2) false a)). unfold oracle_solve. cbn [env ev_oracle]. rewrite (H (mkQuery (s_calls s0) (s_flags s0) false (p_cls (s_prob s0)) a)); [reflexivity|].
        cbn [q_call]. lia. }
    2:{ intros O s. unfold site. rewrite (bind_eq (log_start E RtOracleCall)). pose proof (q_emit (EvStart RtOracleCall) s) as Q. unfold log_start.
        destruct (emit E (EvStart RtOracleCall) s) as [[u|x] s0]; cbn [snd] in *; [|lia].
        rewrite (bind_eq (oracle_solve (env O) false a)). unfold oracle_solve. destruct (ev_oracle _ _); cbn [snd].
        4:{ cbn. lia. }
        all: rewrite (proj1 (QK _ _)); cbn; lia. }
    intros s Hs.
    assert (Hem : (exists x s0, log_start E RtOracleCall s = (Exit x, s0)) \/
                  (exists s0, log_start E RtOracleCall s = (Done tt, s0) /\ qof a s0 = qof a s)).
    { unfold log_start, emit. destruct (s_logger s); [destruct (ev_logfail _ _)|]; [left|right|right]; eauto. }
    pose proof (q_emit (EvStart RtOracleCall) s) as Q. change (emit E (EvStart RtOracleCall) s) with (log_start E RtOracleCall s) in Q.
    destruct Hs as [P1 P2].
    destruct Hem as [(x & s0 & He)|(s0 & He & Hq)].
    { assert (HT : site_t G a gt s = (Exit x, s0)) by (unfold site_t, this_query; rewrite (bind_eq (gets _)); cbn [gets]; rewrite bind_eq, He; reflexivity).
      rewrite HT. rewrite He in Q. cbn [snd] in *. destruct Q as (Q1 & Q2 & Q3).
      split; [split; congruence|]. split; [lia|]. intros O2 HO2. exists O2. split; [exact HO2|]. split; [intros q _; reflexivity|].
      unfold site. now rewrite bind_eq, He. }
    rewrite He in Q. cbn [snd] in Q. destruct Q as (Q1 & Q2 & Q3).
    set (q := qof a s) in *. set (n := s_calls s0) in *.
    assert (Hcall : q_call q = n) by (unfold q, qof; cbn; congruence).
    (* both runs from the answer on *)
    set (K := fun (gt' : M X) (an : answer) => match an with
      | ASat m => (r' <- after G RSat ;; unit_of_res gt' r') (set_ora (OModel m) (set_calls (S n) s0))
      | AUnsat core => (r' <- after G RUnsat ;; unit_of_res gt' r') (set_ora (OCore core) (set_calls (S n) s0))
      | AInterrupted => (r' <- after G RInterrupted ;; unit_of_res gt' r') (set_ora OIdle (set_calls (S n) s0))
      | AErr => (Exit (EErr ErrOracle), set_ora OIdle (set_calls (S n) s0))
      end).
    assert (HT : site_t G a gt s = K (gt q) (ev_oracle E q)).
    { unfold site_t, this_query. rewrite (bind_eq (gets _)). cbn [gets]. rewrite bind_eq, He. rewrite (bind_eq (oracle_solve E false a)). unfold oracle_solve.
      change (mkQuery (s_calls s) (s_flags s) false (p_cls (s_prob s)) a) with q.
      change (mkQuery (s_calls s0) (s_flags s0) false (p_cls (s_prob s0)) a) with (qof a s0). rewrite Hq.
      unfold K. destruct (ev_oracle E q); reflexivity. }
    assert (HS : forall O, site G a g O s = K g (O q)).
    { intros O. unfold site. rewrite bind_eq, He, bind_eq. unfold oracle_solve. cbn [env ev_oracle].
      change (mkQuery (s_calls s0) (s_flags s0) false (p_cls (s_prob s0)) a) with (qof a s0). rewrite Hq.
      unfold K. destruct (O q); reflexivity. }
    rewrite HT.
    assert (Base : forall r o, P (set_ora o (set_calls (S n) s0)) /\
              P (snd (after G r (set_ora o (set_calls (S n) s0)))) /\ s_calls (snd (after G r (set_ora o (set_calls (S n) s0)))) = S n).
    { intros r o. assert (B : P (set_ora o (set_calls (S n) s0))) by (split; cbn; congruence). split; [exact B|].
      destruct (q_after G r HQ (set_ora o (set_calls (S n) s0))) as (B1 & B2 & B3).
      split; [split; [rewrite B2; apply B|rewrite B3; apply B]|]. rewrite B1. reflexivity. }
    (* the same answer *)
    assert (Same : forall r o, K (gt q) (ev_oracle E q) = (r' <- after G r ;; unit_of_res (gt q) r') (set_ora o (set_calls (S n) s0)) ->
              K g (ev_oracle E q) = (r' <- after G r ;; unit_of_res g r') (set_ora o (set_calls (S n) s0)) ->
              (forall m, o = OModel m -> ev_oracle E q = ASat m /\ r = RSat) ->
              P (snd (K (gt q) (ev_oracle E q))) /\ s_calls s <= s_calls (snd (K (gt q) (ev_oracle E q))) /\
              forall O2, ok O2 -> exists O1, ok O1 /\ agree (s_calls (snd (K (gt q) (ev_oracle E q)))) O1 O2 /\ site G a g O1 s = K (gt q) (ev_oracle E q)).
    { intros r o -> HKg Hm. destruct (Base r o) as (B0 & B1 & B2).
      assert (Keep : forall s1, after G r (set_ora o (set_calls (S n) s0)) = s1 -> s_ora (snd s1) = o).
      { intros s1 <-. pose proof (f_after G r HF (set_ora o (set_calls (S n) s0)) o) as Fr. rewrite set_ora_twice in Fr.
        rewrite Fr. reflexivity. }
      specialize (Keep _ eq_refl).
      assert (Plain : forall z s1, s_calls s1 = S n -> P s1 -> K g (ev_oracle E q) = (z, s1) ->
        P s1 /\ s_calls s <= s_calls s1 /\ forall O2, ok O2 -> exists O1, ok O1 /\ agree (s_calls s1) O1 O2 /\ site G a g O1 s = (z, s1)).
      { intros z s1 Hc HPs HK. split; [exact HPs|]. split; [rewrite Hc; lia|]. intros O2 HO2.
        exists (patch n (ev_oracle E) O2). split; [apply patch_ok; [apply E_ok|exact HO2]|].
        split; [rewrite Hc; apply patch_agree|]. rewrite HS, patch_now by exact Hcall. exact HK. }
      revert B1 B2 Keep. rewrite bind_eq. rewrite bind_eq in HKg.
      destruct (after G r (set_ora o (set_calls (S n) s0))) as [[r'|x] s1] eqn:ea; cbn [snd]; intros B1 B2 Keep.
      2:{ apply Plain; assumption. }
      pose proof (after_val _ _ _ _ _ ea). subst r'.
      assert (Uns : r = RUnsat -> P (snd (unit_of_res (gt q) r s1)) /\ s_calls s <= s_calls (snd (unit_of_res (gt q) r s1)) /\
        (forall O2, ok O2 -> exists O1, ok O1 /\ agree (s_calls (snd (unit_of_res (gt q) r s1))) O1 O2 /\ site G a g O1 s = unit_of_res (gt q) r s1)).
      { intros ->. cbn [unit_of_res] in *. apply (Plain (Done (RUnsat, None)) s1); assumption. }
      assert (Rd : r <> RUnsat -> unit_of_res (gt q) r = (y <- gt q ;; ret (r, Some y)) /\ unit_of_res g r = (y <- g ;; ret (r, Some y)))
        by (destruct r; intros Hne; [auto|now elim Hne|auto]).
      assert (Dec : r = RUnsat \/ r <> RUnsat) by (destruct r; [right; discriminate|left; reflexivity|right; discriminate]).
      destruct Dec as [e|ne]; [apply Uns, e|]. destruct (Rd ne) as [U1 U2]. rewrite U1. rewrite U2 in HKg.
      destruct (Hr q s1 B1) as [(m & m' & x & R1 & R2)|(x & R1 & R2)].
      - rewrite Keep in R1. destruct (Hm m R1) as [Hans ->].
        pose proof (HE q) as Hok. rewrite Hans in Hok. destruct (R2 Hok) as (T1 & T2 & T3 & T4).
        unfold bind. rewrite T3. cbn [ret snd]. split; [exact B1|]. split; [cbn; lia|]. intros O2 HO2.
        exists (patch n (answer_with m') O2). split; [apply patch_ok; [apply answer_with_ok|exact HO2]|].
        split; [cbn [set_ora s_calls]; rewrite B2; apply patch_agree|].
        rewrite HS, patch_now by exact Hcall. unfold answer_with. rewrite (proj2 (modelsb_ok m' q) (conj T1 T2)).
        cbn [K]. rewrite bind_eq.
        pose proof (f_after G RSat HF (set_ora o (set_calls (S n) s0)) (OModel m')) as Fr. rewrite set_ora_twice, ea in Fr. cbn [fst snd] in Fr.
        rewrite Fr. cbn [unit_of_res]. unfold bind. rewrite T4. reflexivity.
      - unfold bind. rewrite R1. destruct x as [y|x]; cbn [ret snd];
          (apply Plain; [assumption|assumption|]; rewrite HKg; unfold bind; now rewrite R2). }
    destruct (ev_oracle E q) as [m|core| |] eqn:ean.
    - eapply Same; [reflexivity|reflexivity|]. intros m0 Hm0. injection Hm0 as <-. auto.
    - eapply Same; [reflexivity|reflexivity|]. discriminate.
    - eapply Same; [reflexivity|reflexivity|]. discriminate.
    - cbn [K snd]. split; [split; cbn; congruence|]. split; [cbn; lia|]. intros O2 HO2.
      exists (patch n (ev_oracle E) O2). split; [apply patch_ok; [apply E_ok|exact HO2]|].
      split; [apply patch_agree|]. rewrite HS, patch_now, ean by exact Hcall. reflexivity.
  Qed.

  (** ** Reading the model *)
  Lemma get_costs_P sol s : P s -> get_costs (length os) sol s = (Done (map (fun o => sol_cost o sol) os), s).
  Proof.
    intros [P1 P2].
    assert (G : forall n k, k + n = length os -> mapM (fun j => get_cost j sol) (seq k n) s = (Done (map (fun o => sol_cost o sol) (skipn k os)), s)).
    { induction n as [|n IH]; intros k Hk; cbn [seq mapM].
      - rewrite skipn_all2 by lia. reflexivity.
      - destruct (nth_error os k) as [o|] eqn:eo; [|apply nth_error_None in eo; lia].
        assert (Hsk : skipn k os = o :: skipn (S k) os).
        { clear - eo. revert k eo. induction os as [|x l IH]; intros [|k] eo; try discriminate; cbn in *; [congruence|]. now apply IH. }
        rewrite bind_eq. unfold get_cost at 1, bind at 1, gets at 1. rewrite P2.
        replace (k <? length os) with true by (symmetry; apply Nat.ltb_lt; lia). cbn [guard ret].
        unfold bind at 1, ret at 1, bind at 1, gets at 1. rewrite P1, eo. cbn [unwrap]. unfold bind at 1, ret at 1 2.
        rewrite bind_eq, IH by lia. cbn [ret]. rewrite Hsk. reflexivity. }
    exact (G (length os) 0 eq_refl).
  Qed.
  Definition max_of (s : st) := vm_max_var (p_vm (s_prob s)).
  Lemma solution_eq s : oracle_solution s =
    match max_of s with
    | None => (Exit EPanic, s)
    | Some v => match s_ora s with OModel m => (Done (sol_of m v), s) | _ => (Exit (EErr ErrState), s) end
    end.
  Proof.
    unfold oracle_solution, max_of, bind, gets. destruct (vm_max_var _); [|reflexivity]. cbn [unwrap ret].
    destruct (s_ora s); reflexivity.
  Qed.
  Lemma sol_costs_eq s : P s -> get_solution_and_internal_costs s =
    match max_of s with
    | None => (Exit EPanic, s)
    | Some v => match s_ora s with
                | OModel m => (Done (map (fun o => sol_cost o (sol_of m v)) os, sol_of m v), s)
                | _ => (Exit (EErr ErrState), s)
                end
    end.
  Proof.
    intros HP. unfold get_solution_and_internal_costs. rewrite bind_eq, solution_eq.
    destruct (max_of s) as [v|]; [|reflexivity]. destruct (s_ora s) as [|m|]; try reflexivity.
    rewrite bind_eq. cbn [gets]. rewrite (proj1 HP), bind_eq, (get_costs_P _ _ HP).
    rewrite bind_eq. cbn [gets]. rewrite (proj2 HP), map_length, Nat.eqb_refl. reflexivity.
  Qed.
  Lemma query_clauses q m : sat m (q_cls q) /\ lits_true m (q_assumps q) <-> sat m (q_cls q ++ map (fun l => [l]) (q_assumps q)).
  Proof.
    unfold sat, lits_true. split.
    - intros [H1 H2] c Hc. apply in_app_or in Hc. destruct Hc as [Hc|Hc]; [auto|]. apply in_map_iff in Hc. destruct Hc as (l & <- & Hl).
      unfold clause_true. cbn [existsb]. rewrite (H2 l Hl). reflexivity.
    - intros H. split; [intros c Hc; apply H, in_or_app; now left|]. intros l Hl.
      assert (G : clause_true m [l] = true) by (apply H, in_or_app; right; apply in_map_iff; eauto).
      unfold clause_true in G. cbn [existsb] in G. now rewrite orb_false_r in G.
  Qed.
  Lemma nsh_ok : nsh i.
  Proof.
    pose proof HN as Hn. intros j k o1 o2 l H1 H2 G1 G2. rewrite build_nth in H1, H2.
    destruct (nth_error (in_objs i) j) as [r1|] eqn:e1; [|discriminate].
    destruct (nth_error (in_objs i) k) as [r2|] eqn:e2; [|discriminate].
    injection H1 as <-. injection H2 as <-. apply obj_new_lits in G1, G2.
    apply in_map_iff in G1, G2. destruct G1 as ([l1 w1] & <- & G1). destruct G2 as ([l2 w2] & e & G2). cbn in e. subst l2.
    exact (Hn j k r1 r2 l1 w1 w2 e1 e2 G1 G2).
  Qed.
  Lemma max_ora o s : max_of (set_ora o s) = max_of s.
  Proof. reflexivity. Qed.
  Lemma P_ora o s : P s -> P (set_ora o s).
  Proof. intros H. exact H. Qed.

  Lemma rd_sol_costs tg : reads (sol_costs_t F tg) get_solution_and_internal_costs.
  Proof.
    split; [apply q_sol_costs|]. intros q s HP. pose proof (sol_costs_eq s HP) as Hg. destruct tg; cbn [sol_costs_t].
    2:{ right. rewrite Hg. destruct (max_of s); [destruct (s_ora s)|]; eauto. }
    rewrite gets_eq. fold (max_of s). destruct (max_of s) as [v|] eqn:ev.
    2:{ right. rewrite Hg. eexists; split; reflexivity. }
    rewrite some_eq, gets_eq. destruct (s_ora s) as [|m|core] eqn:eo; try (right; rewrite Hg; eexists; split; reflexivity).
    left. destruct HFl as [F1 F2]. destruct HO as (O1 & O2).
    assert (HT : sat m (q_cls q) /\ lits_true m (q_assumps q) -> exists t', solution_and_costs_tight (fl_oracle F q) os true v (fl_start F q m) =
        Some (t', map (fun o => sol_cost o (sol_of (ora_model (fl_oracle F q) t') v)) os, sol_of (ora_model (fl_oracle F q) t') v) /\
        sat (ora_model (fl_oracle F q) t') (q_cls q ++ map (fun l => [l]) (q_assumps q))).
    { intros Hm. apply query_clauses in Hm. rewrite <- (F2 q m) in Hm.
      destruct (all_run_os (fl_oracle F q) i _ v os (fl_start F q m) O2 O1 (F1 q) nsh_ok HOS Hm) as (t' & T1 & T2).
      exists t'. unfold solution_and_costs_tight. rewrite T1. auto. }
    destruct (solution_and_costs_tight (fl_oracle F q) os true v (fl_start F q m)) as [[[t' cs] sol]|] eqn:es.
    - exists m, (ora_model (fl_oracle F q) t'), (cs, sol). split; [reflexivity|]. intros Hm.
      destruct (HT Hm) as (t2 & T1 & T2). injection T1 as <- -> ->. apply query_clauses in T2. split; [apply T2|]. split; [apply T2|]. split.
      + rewrite gets_eq, (proj1 HP), gets_eq, (proj2 HP), Nat.eqb_refl, true_eq, es. reflexivity.
      + rewrite sol_costs_eq by exact HP. rewrite max_ora, ev. reflexivity.
    - exists m, m, ([], []). split; [reflexivity|]. intros Hm. destruct (HT Hm) as (t2 & T1 & _). discriminate.
  Qed.

  Definition sol_cost_plain (j : nat) : M (nat * assignment) :=
    sol <- oracle_solution ;; c <- get_cost j sol ;; ret (c, sol).
  Lemma cost_plain_eq j s : P s -> sol_cost_plain j s =
    match max_of s with
    | None => (Exit EPanic, s)
    | Some v => match s_ora s with
                | OModel m => match nth_error os j with
                              | Some o => (Done (sol_cost o (sol_of m v), sol_of m v), s)
                              | None => (Exit EPanic, s)
                              end
                | _ => (Exit (EErr ErrState), s)
                end
    end.
  Proof.
    intros HP. unfold sol_cost_plain. rewrite bind_eq, solution_eq.
    destruct (max_of s) as [v|]; [|reflexivity]. destruct (s_ora s) as [|m|]; try reflexivity.
    rewrite bind_eq. unfold get_cost, bind at 1, gets at 1. rewrite (proj2 HP). unfold bind at 1.
    destruct (j <? length os) eqn:el; cbn [guard].
    - unfold ret at 1, bind at 1, gets at 1. rewrite (proj1 HP). destruct (nth_error os j); reflexivity.
    - apply Nat.ltb_ge, nth_error_None in el. rewrite el. reflexivity.
  Qed.
  Lemma rd_sol_cost j : reads (sol_cost_t F j) (sol_cost_plain j).
  Proof.
    split.
    { unfold sol_cost_plain. apply q_bind; [apply q_solution|intros sol]. apply q_bind; [apply q_get_cost|intros c]. apply q_ret. }
    intros q s HP. pose proof (cost_plain_eq j s HP) as Hg. unfold sol_cost_t.
    rewrite gets_eq. fold (max_of s). destruct (max_of s) as [v|] eqn:ev.
    2:{ right. rewrite Hg. eexists; split; reflexivity. }
    rewrite some_eq, gets_eq. destruct (s_ora s) as [|m|core] eqn:eo; try (right; rewrite Hg; eexists; split; reflexivity).
    destruct (nth_error os j) as [o|] eqn:ej.
    2:{ right. exists (Exit EPanic). rewrite Hg. split; [|reflexivity]. rewrite gets_eq, gets_eq, (proj2 HP).
        apply nth_error_None, Nat.ltb_ge in ej. rewrite ej. reflexivity. }
    assert (Hj : j < length os) by (apply nth_error_Some; congruence).
    left. destruct HFl as [F1 F2]. destruct HO as (O1 & O2).
    assert (HT : sat m (q_cls q) /\ lits_true m (q_assumps q) -> exists t', get_cost_tight (fl_oracle F q) os true j (fl_start F q m) (sol_of m v) =
        Some (t', sol_of (ora_model (fl_oracle F q) t') v, sol_cost o (sol_of (ora_model (fl_oracle F q) t') v)) /\
        sat (ora_model (fl_oracle F q) t') (q_cls q ++ map (fun l => [l]) (q_assumps q))).
    { intros Hm. apply query_clauses in Hm. rewrite <- (F2 q m) in Hm.
      destruct (one_run_os (fl_oracle F q) i _ v os j o (fl_start F q m) O2 O1 (F1 q) HOS ej Hm) as (t' & T1 & T2).
      exists t'. rewrite F2 in T1. rewrite T1. auto. }
    destruct (get_cost_tight (fl_oracle F q) os true j (fl_start F q m) (sol_of m v)) as [[[t' sol] c]|] eqn:es.
    - exists m, (ora_model (fl_oracle F q) t'), (c, sol). split; [reflexivity|]. intros Hm.
      destruct (HT Hm) as (t2 & T1 & T2). injection T1 as <- -> ->. apply query_clauses in T2. split; [apply T2|]. split; [apply T2|]. split.
      + rewrite gets_eq, (proj1 HP), gets_eq, (proj2 HP), (proj2 (Nat.ltb_lt _ _) Hj), true_eq, es. reflexivity.
      + rewrite cost_plain_eq by exact HP. rewrite max_ora, ev. cbn [set_ora s_ora]. rewrite ej. reflexivity.
    - exists m, m, (0, []). split; [reflexivity|]. intros Hm. destruct (HT Hm) as (t2 & T1 & _). discriminate.
  Qed.

  (** ** Calls without tightening *)
  Lemma r_solve a : rel (k_solve_assumps E a) (fun O => k_solve_assumps (env O) a).
  Proof.
    assert (Hrd : reads (fun _ => ret tt) (ret tt)).
    { split; [apply q_ret|]. intros q s _. right. exists (Done tt). auto. }
    pose proof (r_site (fun _ => ret tt) a (fun _ => ret tt) (ret tt) (fun _ => q_ret tt) (fun _ => f_ret tt) Hrd) as R.
    pose proof (r_bind _ _ (fun x => ret (fst x)) (fun _ x => ret (fst x)) R (fun x => r_quiet _ (q_ret _))) as R2.
    eapply r_ext; [| |exact R2].
    - intros s. unfold k_solve_assumps, site_t, this_query, after, bind, gets. destruct (log_start E RtOracleCall s) as [[u|x] s0]; [|reflexivity].
      destruct (oracle_solve E false a s0) as [[r|x] s1]; [|reflexivity]. destruct (log_end E s1) as [[u1|x] s2]; [|reflexivity].
      destruct (check_termination E s2) as [[u2|x] s3]; [|reflexivity]. destruct (log_oracle_call E r s3) as [[u3|x] s4]; [|reflexivity].
      destruct r; reflexivity.
    - intros O s. unfold k_solve_assumps, site, after, bind. change (log_start (env O) RtOracleCall s) with (log_start E RtOracleCall s).
      destruct (log_start E RtOracleCall s) as [[u|x] s0]; [|reflexivity].
      destruct (oracle_solve (env O) false a s0) as [[r|x] s1]; [|reflexivity]. change (log_end (env O) s1) with (log_end E s1). destruct (log_end E s1) as [[u1|x] s2]; [|reflexivity].
      change (check_termination (env O) s2) with (check_termination E s2). destruct (check_termination E s2) as [[u2|x] s3]; [|reflexivity].
      change (log_oracle_call (env O) r s3) with (log_oracle_call E r s3). destruct (log_oracle_call E r s3) as [[u3|x] s4]; [|reflexivity].
      destruct r; reflexivity.
  Qed.

  (** ** The programs *)
  Ltac quick L := exact (r_quiet _ L).
  Ltac step := first
    [ apply r_solve
    | quick (q_ret (A := _)) | (apply (r_quiet _ (q_ret _)))
    | (apply (r_quiet _ (q_throw _))) | (apply (r_quiet _ (q_guard _))) | (apply (r_quiet _ (q_unwrap _)))
    | (apply (r_quiet _ (q_or_err _ _))) | (apply (r_quiet _ (q_emit _))) | (apply (r_quiet _ q_check))
    | (apply (r_quiet _ (q_gets _))) | (apply (r_quiet _ (q_add_clause _))) | (apply (r_quiet _ (q_add_clauses _)))
    | (apply (r_quiet _ (q_get_cost _ _))) | (apply (r_quiet _ (q_get_costs _ _))) | (apply (r_quiet _ (q_get_enc _)))
    | (apply (r_quiet _ (q_extend _ _ _))) | (apply (r_quiet _ q_new_var)) | (apply (r_quiet _ q_solution)) | (apply (r_quiet _ q_core))
    | (apply (r_quiet _ (q_candidate _ _))) | (apply (r_quiet _ (q_finish _))) ].
  Ltac all := repeat first [ step | (apply r_bind; [|intros ?]) ].
  Ltac cases := all; repeat (match goal with
    | |- rel (match ?x with _ => _ end) _ => destruct x
    | |- rel (let '(_, _) := ?x in _) _ => destruct x
    end; all).

  Lemma r_yield_body cs a x : rel (yield_body E cs a x) (fun O => yield_body (env O) cs a x).
  Proof.
    destruct x as [sol nd]. unfold yield_body.
    apply r_bind; [step|]. intros n. apply r_bind; [step|]. intros cs'. apply r_bind; [step|]. intros _.
    apply r_bind; [step|]. intros mo. cbv zeta. apply r_bind; [exact (r_quiet _ (q_catch _ q_sol))|]. intros [u|x].
    - apply r_bind; [step|]. intros o. destruct (enum_done _ _); [all|]. cases.
    - apply r_bind; [exact (r_quiet _ (q_catch _ (q_nd _)))|]. intros t.
      apply r_bind; [apply (r_quiet (front_push _)); apply q_modify; reflexivity|]. intros _.
      apply r_bind; [destruct t; step|]. intros _. step.
  Qed.
  Lemma r_yield cs a sol : rel (yield_solutions E cs a sol) (fun O => yield_solutions (env O) cs a sol).
  Proof.
    unfold yield_solutions. apply r_bind; [step|]. intros n. apply r_bind; [step|]. intros _.
    apply r_bind; [step|]. intros _. apply r_bind; [exact (r_quiet _ q_unphase)|]. intros _.
    apply r_bind; [exact (r_quiet _ (q_external _))|]. intros ext. cbn [env ev_fuel].
    apply (r_loop_n (yield_body E cs a) (fun O => yield_body (env O) cs a)). intros x. apply r_yield_body.
  Qed.
  Lemma r_linsu_start idx base ub : rel (linsu_start E idx base ub) (fun O => linsu_start (env O) idx base ub).
  Proof. unfold linsu_start. cases. Qed.
  Lemma r_linsu_final idx base c sol : rel (linsu_final E idx base c sol) (fun O => linsu_final (env O) idx base c sol).
  Proof. unfold linsu_final. cases. Qed.
  Lemma r_linsu_body idx base lb x : rel (linsu_body E idx base lb x) (fun O => linsu_body (env O) idx base lb x).
  Proof. unfold linsu_body. cases. Qed.
  Lemma r_linsu idx base ub lb : rel (linsu E idx base ub lb) (fun O => linsu (env O) idx base ub lb).
  Proof.
    unfold linsu. apply r_bind; [step|]. intros _. apply r_bind; [apply r_linsu_start|]. intros [x|]; [|all].
    apply r_bind; [cbn [env ev_fuel]; apply (r_loop_n _ (fun O => linsu_body (env O) idx base _)); intros y; apply r_linsu_body|].
    intros [r|[c so]]; [all|].
    apply r_bind; [apply r_linsu_final|]. intros a. all.
  Qed.
  Lemma r_linsu_yield idx base ub lb : rel (linsu_yield E idx base ub lb) (fun O => linsu_yield (env O) idx base ub lb).
  Proof.
    unfold linsu_yield. apply r_bind; [apply r_linsu|]. intros [[c sol]|]; [|all].
    apply r_bind; [step|]. intros n. apply r_bind; [step|]. intros cs. apply r_bind; [step|]. intros _.
    apply r_bind; [step|]. intros _. apply r_bind; [step|]. intros e. apply r_bind; [step|]. intros a.
    apply r_bind; [apply r_yield|]. intros _. step.
  Qed.
  Lemma q_enforce cs : quiet (enforce_dominating cs).
  Proof.
    unfold enforce_dominating. apply q_bind; [apply q_gets|]. intros n. apply q_bind; [apply q_guard|]. intros _.
    apply q_bind; [apply q_forM; intros ic; apply q_extend|]. intros _. unfold enforce_all.
    apply q_bind; [|intros ls; apply q_ret]. apply q_mapM. intros ic. apply q_bind; [apply q_get_enc|]. intros e. apply q_unwrap.
  Qed.
  Lemma q_block_lits ic : quiet (block_lits ic).
  Proof.
    unfold block_lits. repeat first [apply q_get_enc | apply q_ret | apply q_extend | apply q_unwrap | apply q_new_var | apply q_add_clause | apply q_add_clauses
      | apply q_throw | apply q_or_err | apply q_guard | apply q_gets
      | (apply q_bind; [|intros ?]) | match goal with |- quiet (match ?x with _ => _ end) => destruct x end ].
  Qed.
  Lemma q_dominated cs : quiet (dominated_block_clause cs).
  Proof.
    unfold dominated_block_clause. repeat first [(apply q_mapM; intros ?; apply q_block_lits) | apply q_ret | apply q_gets | apply q_guard | (apply q_bind; [|intros ?])].
  Qed.
  Lemma q_tmp cs : quiet (tmp_block_dominated cs).
  Proof.
    unfold tmp_block_dominated. repeat first [apply q_dominated | apply q_new_var | apply q_add_clause | apply q_ret | apply q_gets | apply q_guard
      | (apply q_mapM; intros ?; apply q_block_lits) | (apply q_bind; [|intros ?])].
  Qed.

  (** one call with what is read afterwards; [G] is between the call and the reading *)
  Definition G1 (r : sres) : M unit := match r with RUnsat => ret tt | _ => check_termination E end.
  Definition G2 (r : sres) : M unit := match r with RInterrupted => throw EPanic | _ => ret tt end.
  Definition G3 (r : sres) : M unit := ret tt.
  Lemma q_G1 r : quiet (G1 r). Proof. destruct r; first [apply q_ret|apply q_check]. Qed.
  Lemma q_G2 r : quiet (G2 r). Proof. destruct r; first [apply q_ret|apply q_throw]. Qed.
  Lemma f_G1 r : frame (G1 r). Proof. destruct r; first [apply f_ret|apply f_check]. Qed.
  Lemma f_G2 r : frame (G2 r). Proof. destruct r; first [apply f_ret|apply f_throw]. Qed.

  (** splitting a program at the reading *)
  Lemma split_t {X B} (G : sres -> M unit) a (gt : query -> M X) (K : query -> sres -> M B) (U : M B) (k : X -> M B) s :
    (forall q s', K q RUnsat s' = (G RUnsat ;;; U) s') ->
    (forall q r s', r <> RUnsat -> K q r s' = (G r ;;; x <- gt q ;; k x) s') ->
    (q <- this_query a ;; r <- k_solve_assumps E a ;; K q r) s =
    (rx <- site_t G a gt ;; match snd rx with None => U | Some x => k x end) s.
  Proof.
    intros HU HK. unfold k_solve_assumps, site_t, this_query, after, bind, gets.
    destruct (log_start E RtOracleCall s) as [[u|x] s0]; [|reflexivity].
    destruct (oracle_solve E false a s0) as [[r|x] s1]; [|reflexivity]. destruct (log_end E s1) as [[u1|x] s2]; [|reflexivity].
    destruct (check_termination E s2) as [[u2|x] s3]; [|reflexivity]. destruct (log_oracle_call E r s3) as [[u3|x] s4]; [|reflexivity].
    cbn [ret]. set (q := mkQuery _ _ _ _ _). destruct r.
    - rewrite HK by discriminate. unfold bind. destruct (G RSat s4) as [[u4|x] s5]; [|reflexivity]. cbn [ret unit_of_res]. unfold bind.
      destruct (gt q s5) as [[y|x] s6]; reflexivity.
    - rewrite HU. unfold bind. destruct (G RUnsat s4) as [[u4|x] s5]; reflexivity.
    - rewrite HK by discriminate. unfold bind. destruct (G RInterrupted s4) as [[u4|x] s5]; [|reflexivity]. cbn [ret unit_of_res]. unfold bind.
      destruct (gt q s5) as [[y|x] s6]; reflexivity.
  Qed.
  Lemma split_p {X B} (G : sres -> M unit) a (g : M X) (K : sres -> M B) (U : M B) (k : X -> M B) O s :
    (forall s', K RUnsat s' = (G RUnsat ;;; U) s') ->
    (forall r s', r <> RUnsat -> K r s' = (G r ;;; x <- g ;; k x) s') ->
    (r <- k_solve_assumps (env O) a ;; K r) s =
    (rx <- site G a g O ;; match snd rx with None => U | Some x => k x end) s.
  Proof.
    intros HU HK. unfold k_solve_assumps, site, after, bind.
    change (log_start (env O) RtOracleCall s) with (log_start E RtOracleCall s).
    destruct (log_start E RtOracleCall s) as [[u|x] s0]; [|reflexivity].
    destruct (oracle_solve (env O) false a s0) as [[r|x] s1]; [|reflexivity].
    change (log_end (env O) s1) with (log_end E s1). destruct (log_end E s1) as [[u1|x] s2]; [|reflexivity].
    change (check_termination (env O) s2) with (check_termination E s2). destruct (check_termination E s2) as [[u2|x] s3]; [|reflexivity].
    change (log_oracle_call (env O) r s3) with (log_oracle_call E r s3). destruct (log_oracle_call E r s3) as [[u3|x] s4]; [|reflexivity].
    cbn [ret]. destruct r.
    - rewrite HK by discriminate. unfold bind. destruct (G RSat s4) as [[u4|x] s5]; [|reflexivity]. cbn [ret unit_of_res]. unfold bind.
      destruct (g s5) as [[y|x] s6]; reflexivity.
    - rewrite HU. unfold bind. destruct (G RUnsat s4) as [[u4|x] s5]; reflexivity.
    - rewrite HK by discriminate. unfold bind. destruct (G RInterrupted s4) as [[u4|x] s5]; [|reflexivity]. cbn [ret unit_of_res]. unfold bind.
      destruct (g s5) as [[y|x] s6]; reflexivity.
  Qed.
  Lemma r_split {X B} (G : sres -> M unit) a (gt : query -> M X) (g : M X) (K : query -> sres -> M B) (Kp : (query -> answer) -> sres -> M B)
    (U : M B) (Up : (query -> answer) -> M B) (k : X -> M B) (kp : (query -> answer) -> X -> M B) :
    (forall r, quiet (G r)) -> (forall r, frame (G r)) -> reads gt g ->
    (forall q s', K q RUnsat s' = (G RUnsat ;;; U) s') ->
    (forall q r s', r <> RUnsat -> K q r s' = (G r ;;; x <- gt q ;; k x) s') ->
    (forall O s', Kp O RUnsat s' = (G RUnsat ;;; Up O) s') ->
    (forall O r s', r <> RUnsat -> Kp O r s' = (G r ;;; x <- g ;; kp O x) s') ->
    rel U Up -> (forall x, rel (k x) (fun O => kp O x)) ->
    rel (q <- this_query a ;; r <- k_solve_assumps E a ;; K q r) (fun O => r <- k_solve_assumps (env O) a ;; Kp O r).
  Proof.
    intros HQ HF HR H1 H2 H3 H4 RU RK.
    eapply r_ext; [intros s; apply (split_t G a gt K U k s H1 H2)|intros O s; apply (split_p G a g (Kp O) (Up O) (kp O) O s (H3 O) (H4 O))|].
    apply (r_bind (site_t G a gt) (site G a g)); [apply r_site; assumption|]. intros [r [x|]]; cbn [snd]; [apply RK|exact RU].
  Qed.

  Lemma r_pmin_body base x : rel (pmin_body_t E F w base x) (fun O => pmin_body (env O) base x).
  Proof.
    unfold pmin_body_t, pmin_body. destruct x as [[cs sol] sw]. apply r_bind; [step|]. intros o. apply r_bind.
    { destruct (o_enum o).
      - apply r_bind; [exact (r_quiet _ (q_dominated _))|]. intros c. all.
      - apply r_bind; [destruct sw; step|]. intros _. apply r_bind; [exact (r_quiet _ (q_tmp _))|]. intros b. step.
      - apply r_bind; [destruct sw; step|]. intros _. apply r_bind; [exact (r_quiet _ (q_tmp _))|]. intros b. step. }
    intros sw'. cbv zeta. apply r_bind; [exact (r_quiet _ (q_enforce _))|]. intros a.
    refine (r_split G1 _ _ _ _ _ (log_end E ;;; ret (inr (cs, sol, sw'))) (fun O => log_end (env O) ;;; ret (inr (cs, sol, sw')))
      (fun cs_sol => let '(cs', sol') := cs_sol in log_candidate E cs' PhMinimization ;;; check_termination E ;;; phase_solution sol' ;;; ret (inl (cs', sol', sw')))
      (fun O cs_sol => let '(cs', sol') := cs_sol in log_candidate (env O) cs' PhMinimization ;;; check_termination (env O) ;;; phase_solution sol' ;;; ret (inl (cs', sol', sw')))
      q_G1 f_G1 (rd_sol_costs (wanted w PhMinimization)) _ _ _ _ _ _).
    - intros; reflexivity.
    - intros q [| |] s' H; [reflexivity|now elim H|reflexivity].
    - intros; reflexivity.
    - intros O [| |] s' H; [reflexivity|now elim H|reflexivity].
    - all.
    - intros [cs' sol']. unfold phase_solution. all.
  Qed.
  Lemma r_pmin cs sol base : rel (p_minimization_t E F w cs sol base) (fun O => p_minimization (env O) cs sol base).
  Proof.
    unfold p_minimization_t, p_minimization. apply r_bind; [step|]. intros n. apply r_bind; [step|]. intros _. apply r_bind; [step|]. intros _.
    cbn [env ev_fuel]. apply (r_loop_n _ (fun O => pmin_body (env O) base)). intros x. apply r_pmin_body.
  Qed.
  Definition rest_t (base : list lit) (x : list nat * assignment) : M unit :=
    let '(cs, sol) := x in
    log_candidate E cs PhOuterLoop ;;;
    check_termination E ;;;
    phase_solution sol ;;;
    r <- p_minimization_t E F w cs sol base ;;
    let '(cs', sol', sw) := r in
    a <- enforce_dominating cs' ;;
    yield_solutions E cs' a sol' ;;;
    match sw with Some b => add_clause [b] | None => ret tt end.
  Definition rest_p (base : list lit) (O : query -> answer) (x : list nat * assignment) : M unit :=
    let '(cs, sol) := x in
    log_candidate (env O) cs PhOuterLoop ;;;
    check_termination (env O) ;;;
    phase_solution sol ;;;
    r <- p_minimization (env O) cs sol base ;;
    let '(cs', sol', sw) := r in
    a <- enforce_dominating cs' ;;
    yield_solutions (env O) cs' a sol' ;;;
    match sw with Some b => add_clause [b] | None => ret tt end.
  Lemma r_rest base x : rel (rest_t base x) (fun O => rest_p base O x).
  Proof.
    destruct x as [cs sol]. unfold rest_t, rest_p. apply r_bind; [step|]. intros _. apply r_bind; [step|]. intros _.
    apply r_bind; [step|]. intros _. apply r_bind; [apply r_pmin|]. intros [[cs' sol'] sw].
    apply r_bind; [exact (r_quiet _ (q_enforce _))|]. intros a. apply r_bind; [apply r_yield|]. intros _. destruct sw; step.
  Qed.
  Lemma r_outer base a :
    rel (q <- this_query a ;; r <- k_solve_assumps E a ;;
         match r with RUnsat => log_end E ;;; ret (@inr unit unit tt) | _ => check_termination E ;;; minimize_and_yield_t E F w base q ;;; ret (inl tt) end)
        (fun O => r <- k_solve_assumps (env O) a ;;
         match r with RUnsat => log_end (env O) ;;; ret (inr tt) | _ => check_termination (env O) ;;; minimize_and_yield (env O) base ;;; ret (inl tt) end).
  Proof.
    assert (A1 : forall q s, (minimize_and_yield_t E F w base q ;;; ret (@inl unit unit tt)) s =
      (x <- sol_costs_t F (wanted w PhOuterLoop) q ;; rest_t base x ;;; ret (inl tt)) s).
    { intros q s. unfold minimize_and_yield_t, rest_t, bind. destruct (sol_costs_t F _ q s) as [[[cs sol]|x] s1]; reflexivity. }
    assert (A2 : forall O s, (minimize_and_yield (env O) base ;;; ret (@inl unit unit tt)) s =
      (x <- get_solution_and_internal_costs ;; rest_p base O x ;;; ret (inl tt)) s).
    { intros O s. unfold minimize_and_yield, rest_p, bind. destruct (get_solution_and_internal_costs s) as [[[cs sol]|x] s1]; reflexivity. }
    refine (r_split G1 a (sol_costs_t F (wanted w PhOuterLoop)) get_solution_and_internal_costs _ _
      (log_end E ;;; ret (inr tt)) (fun O => log_end (env O) ;;; ret (inr tt))
      (fun x => rest_t base x ;;; ret (inl tt)) (fun O x => rest_p base O x ;;; ret (inl tt))
      q_G1 f_G1 (rd_sol_costs _) _ _ _ _ _ _).
    - intros; reflexivity.
    - intros q [| |] s' H; [|now elim H|]; cbn [G1]; rewrite !bind_eq; (destruct (check_termination E s') as [[u|x] s1]; [apply A1|reflexivity]).
    - intros; reflexivity.
    - intros O [| |] s' H; [|now elim H|]; cbn [G1]; rewrite !bind_eq; change (check_termination (env O) s') with (check_termination E s');
        (destruct (check_termination E s') as [[u|x] s1]; [apply A2|reflexivity]).
    - all.
    - intros x. apply r_bind; [apply r_rest|]. intros _. step.
  Qed.
  Lemma r_pminimal : rel (pminimal_main_t E F w) (fun O => pminimal_main (env O)).
  Proof.
    unfold pminimal_main_t, pminimal_main. apply r_bind; [step|]. intros n. apply r_bind; [step|]. intros n'. apply r_bind; [step|]. intros _.
    apply r_bind; [step|]. intros _. cbn [env ev_fuel]. apply (r_loop_n _ (fun O => pminimal_body (env O))). intros x. exact (r_outer [] []).
  Qed.
  Lemma r_harvest base : rel (harvest_t E F w base) (fun O => harvest (env O) base).
  Proof.
    unfold harvest_t, harvest. apply r_bind; [step|]. intros n. apply r_bind; [step|]. intros n'. apply r_bind; [step|]. intros _.
    apply r_bind; [step|]. intros _. cbn [env ev_fuel]. apply (r_loop_n _ (fun O => harvest_body (env O) base)). intros x.
    unfold harvest_body_t, harvest_body. apply r_bind; [step|]. intros f. exact (r_outer base (base ++ fence_assumps f)).
  Qed.
  Lemma q_fence_raise j : quiet (fence_raise j).
  Proof.
    unfold fence_raise. repeat first [apply q_get_enc | apply q_ret | apply q_extend | apply q_unwrap | apply q_guard | apply q_gets | apply q_throw
      | (apply q_modify; reflexivity) | (apply q_bind; [|intros ?]) | match goal with |- quiet (match ?x with _ => _ end) => destruct x end ].
  Qed.
  Lemma q_core_loop core : forall found, quiet (fence_core_loop core found).
  Proof.
    induction core as [|c core IH]; intros found; cbn [fence_core_loop]; [apply q_ret|].
    apply q_bind; [apply q_gets|]. intros f. destruct (find_match c 0 found f); [|apply IH].
    apply q_bind; [apply q_fence_raise|]. intros _. apply IH.
  Qed.
  Lemma q_fence_init : quiet fence_init.
  Proof.
    unfold fence_init. apply q_bind; [apply q_gets|]. intros [|y f]; [|apply q_ret]. apply q_bind; [apply q_gets|]. intros n.
    apply q_forM. intros j. unfold fence_init_one.
    repeat first [apply q_get_enc | apply q_ret | apply q_extend | apply q_unwrap | apply q_guard | apply q_gets | apply q_throw
      | (apply q_modify; reflexivity) | (apply q_bind; [|intros ?]) | match goal with |- quiet (match ?x with _ => _ end) => destruct x end ].
  Qed.
  Lemma q_update_fence core : quiet (update_fence E core).
  Proof.
    unfold update_fence. apply q_bind; [apply q_gets|]. intros f. apply q_bind; [apply q_core_loop|]. intros _.
    apply q_bind; [apply q_gets|]. intros f'. apply q_emit.
  Qed.
  Lemma r_lb : rel (lb_main_t E F w) (fun O => lb_main (env O)).
  Proof.
    unfold lb_main_t, lb_main. apply r_bind; [step|]. intros n. apply r_bind; [step|]. intros n'. apply r_bind; [step|]. intros _.
    apply r_bind; [step|]. intros _. apply r_bind; [exact (r_quiet _ q_fence_init)|]. intros _. cbn [env ev_fuel].
    apply (r_loop_n _ (fun O => lb_body (env O))). intros x. unfold lb_body_t, lb_body.
    apply r_bind; [step|]. intros f. apply r_bind; [step|]. intros [| |]; [| |step].
    - apply r_bind; [apply r_harvest|]. intros _. step.
    - apply r_bind; [step|]. intros [|l core]; [all|]. apply r_bind; [exact (r_quiet _ (q_update_fence _))|]. intros _. all.
  Qed.
  Lemma r_bi_body base d x : rel (bi_body_t E F base d x) (fun O => bi_body (env O) base d x).
  Proof.
    destruct x as [[ic sol] il]. unfold bi_body_t, bi_body. apply r_bind; [apply r_linsu|]. intros [[ic' sol']|]; [|all].
    apply r_bind; [step|]. intros dc. apply r_bind; [step|]. intros _. apply r_bind; [step|]. intros e. apply r_bind; [step|]. intros a.
    apply r_bind; [apply r_linsu_yield|]. intros r. apply r_bind; [step|]. intros [dc' sol2].
    destruct (dc' <=? d); [all|]. apply r_bind; [step|]. intros _. apply r_bind; [step|]. intros e1. apply r_bind; [step|]. intros b.
    apply r_bind; [step|]. intros _.
    refine (r_split G2 base (sol_cost_t F 0) (sol_cost_plain 0) _ _
      (log_end E ;;; ret (inr tt)) (fun O => log_end (env O) ;;; ret (inr tt))
      (fun cs => ret (inl (fst cs, snd cs, ic' + 1))) (fun _ cs => ret (inl (fst cs, snd cs, ic' + 1)))
      q_G2 f_G2 (rd_sol_cost 0) _ _ _ _ _ _).
    - intros; reflexivity.
    - intros q [| |] s' H; [reflexivity|now elim H|reflexivity].
    - intros; reflexivity.
    - intros O [| |] s' H; [|now elim H|reflexivity]. cbn [G2]. unfold sol_cost_plain, bind, ret.
      destruct (oracle_solution s') as [[so|y] s1]; [|reflexivity]. destruct (get_cost 0 so s1) as [[c|y] s2]; reflexivity.
    - all.
    - intros y. step.
  Qed.
  Lemma r_bi : rel (bioptsat_t E F []) (fun O => bi_main (env O)).
  Proof.
    unfold bioptsat_t, bi_main, bioptsat. apply r_bind; [step|]. intros _. apply r_bind; [step|]. intros n. apply r_bind; [step|]. intros _.
    apply r_bind; [step|]. intros e0. apply r_bind; [step|]. intros e1.
    refine (r_split G3 [] (sol_cost_t F 0) (sol_cost_plain 0) _ _ (ret tt) (fun O => ret tt)
      (fun cs => loop (ev_fuel E) (bi_body_t E F [] (oe_offset e1)) (fst cs, snd cs, oe_offset e0))
      (fun O cs => loop (ev_fuel E) (bi_body (env O) [] (oe_offset e1)) (fst cs, snd cs, oe_offset e0))
      (fun _ => q_ret tt) (fun _ => f_ret tt) (rd_sol_cost 0) _ _ _ _ _ _).
    - intros; reflexivity.
    - intros q [| |] s' H; [reflexivity|now elim H|reflexivity].
    - intros; reflexivity.
    - assert (A : forall O s', (sol <- oracle_solution ;; c <- get_cost 0 sol ;; loop (ev_fuel (env O)) (bi_body (env O) [] (oe_offset e1)) (c, sol, oe_offset e0)) s' =
        (G3 RSat ;;; x <- sol_cost_plain 0 ;; loop (ev_fuel E) (bi_body (env O) [] (oe_offset e1)) (fst x, snd x, oe_offset e0)) s').
      { intros O s'. unfold G3, sol_cost_plain, bind at 1 2 3 4 5 6, ret.
        destruct (oracle_solution s') as [[so|y] s1] eqn:e; unfold bind; rewrite ?e; [|reflexivity]. destruct (get_cost 0 so s1) as [[c|y] s2]; reflexivity. }
      intros O [| |] s' H; [apply A|now elim H|apply A].
    - step.
    - intros y. apply (r_loop_n _ (fun O => bi_body (env O) [] (oe_offset e1))). intros z. apply r_bi_body.
  Qed.

  Definition is_plain_run al l s : Prop := exists E', oracle_ok E' /\ same_but_oracle E E' /\
    tight_solve E F w al l s = alg_solve al E' l s /\ P (snd (tight_solve E F w al l s)).
  Lemma plain_of_rel al l s : P s -> rel (tight_solve E F w al l) (fun O => alg_solve al (env O) l) -> is_plain_run al l s.
  Proof.
    intros HP R. destruct (re_run _ _ R s HP) as (R1 & _ & R3). destruct (R3 (ev_oracle E) E_ok) as (O1 & [H1 H3] & _ & H2).
    exists (env O1). split; [exact H1|]. split; [repeat split; exact H3|]. split; [symmetry; exact H2|exact R1].
  Qed.
  Lemma run_bi l s : P s -> is_plain_run ABiOptSat l s.
  Proof.
    intros HP. apply plain_of_rel; [exact HP|]. unfold tight_solve, alg_solve, bi_solve.
    apply r_bind; [apply (r_quiet (start_solving l)); apply q_modify; reflexivity|intros _]. apply r_bi.
  Qed.
  Lemma run_other al l s : al <> ABiOptSat -> P s -> is_plain_run al l s.
  Proof.
    intros Ha HP. apply plain_of_rel; [exact HP|]. unfold tight_solve, alg_solve.
    destruct al; [| |now elim Ha]; unfold pminimal_solve, lb_solve;
      (apply r_bind; [apply (r_quiet (start_solving l)); apply q_modify; reflexivity|intros _]); [apply r_pminimal|apply r_lb].
  Qed.
End Sim.

(** The solver has the objectives of the instance, up to lower bounds *)
Definition objs_kept {I} (i : inst) (s : st I) : Prop :=
  map obj_iter (p_objs (s_prob s)) = map obj_iter (build_objs 0 (in_objs i)) /\ n_objs (s_stats s) = length (p_objs (s_prob s)).

Lemma tight_run {I} (E : environ) F w i al l (s : st I) : oracle_ok E -> flipper_ok (in_objs i) F -> plain_objs i ->
  (al <> ABiOptSat -> not_shared (in_objs i)) -> objs_kept i s ->
  exists E', oracle_ok E' /\ same_but_oracle E E' /\ tight_solve E F w al l s = alg_solve al E' l s /\
    objs_kept i (snd (tight_solve E F w al l s)).
Proof.
  intros HE HF HO HN [HK1 HK2]. assert (HP : P (p_objs (s_prob s)) s) by (split; [reflexivity|exact HK2]).
  assert (D : al = ABiOptSat \/ al <> ABiOptSat) by (destruct al; (now left) || (now right)).
  assert (G : is_plain_run E F w (p_objs (s_prob s)) al l s).
  { destruct D as [-> |Ha]; [apply (run_bi E F w i); assumption|]. apply (run_other E F w i); auto. }
  destruct G as (E' & G1 & G2 & G3 & G4 & G5). exists E'. split; [exact G1|]. split; [exact G2|]. split; [exact G3|].
  split; rewrite G4; [exact HK1|exact G5].
Qed.

Lemma new_kept {I} al i o (s : st I) : alg_new al i o = Some s -> objs_kept i s.
Proof.
  assert (G : forall s, kernel_new (in_cls i) (build_objs 0 (in_objs i)) (in_vm i) o = Some s -> objs_kept (I := I) i s).
  { intros s0. unfold kernel_new. destruct (vm_max_var (in_vm i)); [|discriminate].
    destruct (init_encs _ _ _) as [es next]. intros H. injection H as <-. split; reflexivity. }
  unfold alg_new. destruct al; [apply G|apply G|]. unfold bi_new. destruct (kernel_new _ _ _ _) as [s1|] eqn:e; [|discriminate].
  destruct (_ =? 2); [|discriminate]. intros H. injection H as <-. now apply G.
Qed.
Lemma start_kept {I} (SP : enc_spec I) i o (s : st I) : start SP i o s -> objs_kept i s.
Proof.
  intros H. split; [|exact (sa_n _ _ _ _ H)]. pose proof (sa_objs _ _ _ _ H) as G. unfold sim in G.
  apply (f_equal (map obj_iter)) in G. rewrite !map_map in G.
  rewrite (map_ext (fun x => obj_iter (obj_set_lb 0 x)) obj_iter) in G by (intros x; apply obj_iter_lb).
  rewrite (map_ext (fun x => obj_iter (obj_set_lb 0 x)) obj_iter) in G by (intros x; apply obj_iter_lb). exact G.
Qed.
