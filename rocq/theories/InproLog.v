(** * What inprocessing tells the logger *)
From Coq Require Import List Bool Arith Lia ZArith.
From Verif Require Import Base BaseLemmas MTypes MKernel MOll MMaxPre MInpro InproSpec.
Import ListNotations.

Section InproLog.
  Context {I : enc_impl} (T : tot_impl I).
  Notation M := (M I).
  Notation st := (st I).
  Variable E : environ.
  (** the logger stays attached or detached, and what it was told is kept *)
  Definition tells (s s' : st) : Prop := s_logger s' = s_logger s /\ exists evs, s_trace s' = evs ++ s_trace s.
  Definition ext {A} (c : M A) : Prop := forall s, tells s (snd (c s)).
  Lemma tells_refl s : tells s s.
  Proof. split; [reflexivity|]. now exists []. Qed.
  Lemma tells_trans s s1 s2 : tells s s1 -> tells s1 s2 -> tells s s2.
  Proof. intros [H1 [a H2]] [H3 [b H4]]. split; [congruence|]. exists (b ++ a). now rewrite H4, H2, app_assoc. Qed.
  Lemma x_ret {A} (a : A) : ext (ret a).
  Proof. intros s. apply tells_refl. Qed.
  Lemma x_throw {A} x : ext (A := A) (throw x).
  Proof. intros s. apply tells_refl. Qed.
  Lemma x_bind {A B} (c : M A) (k : A -> M B) : ext c -> (forall a, ext (k a)) -> ext (bind c k).
  Proof.
    intros H1 H2 s. specialize (H1 s). unfold bind. destruct (c s) as [[a|x] s']; cbn [snd] in *; [|exact H1].
    eapply tells_trans; [exact H1|apply H2].
  Qed.
  Lemma x_gets {A} (f : st -> A) : ext (gets f).
  Proof. intros s. apply tells_refl. Qed.
  Lemma x_modify f : (forall s, s_logger (f s) = s_logger s) -> (forall s, s_trace (f s) = s_trace s) -> ext (modify f).
  Proof. intros H1 H2 s. split; [apply H1|exists []; apply H2]. Qed.
  Lemma x_guard b : ext (guard b).
  Proof. destruct b; [apply x_ret|apply x_throw]. Qed.
  Lemma x_unwrap {A} (o : option A) : ext (unwrap o).
  Proof. destruct o; [apply x_ret|apply x_throw]. Qed.
  Lemma x_emit ev : ext (emit E ev).
  Proof.
    intros s. unfold emit. destruct (s_logger s) eqn:e; [|apply tells_refl].
    destruct (ev_logfail E _); cbn [snd]; (split; [cbn; congruence|exists [ev]; reflexivity]).
  Qed.
  Lemma x_check : ext (check_termination E).
  Proof. intros s. unfold check_termination. destruct (ev_flag E _); cbn [snd]; (split; [reflexivity|exists []; reflexivity]). Qed.
  Lemma x_tick g p t : ext (tick g p t).
  Proof.
    intros s. unfold tick. destruct (g (s_lims s)) as [[|n]|]; [apply tells_refl| |apply tells_refl].
    destruct (n =? 0); (split; [reflexivity|exists []; reflexivity]).
  Qed.
  Lemma x_oracle b a : ext (oracle_solve E b a).
  Proof. intros s. unfold oracle_solve. destruct (ev_oracle E _); (split; [reflexivity|exists []; reflexivity]). Qed.
  Ltac modify_tac := apply x_modify; reflexivity.
  Ltac gets_tac := apply x_gets.
  Ltac one0 := first [ apply x_ret | apply x_throw | apply x_guard | apply x_unwrap | apply x_emit | apply x_check
    | gets_tac | apply x_tick | apply x_oracle | modify_tac ].
  Ltac go0 := repeat first [ one0 | (apply x_bind; [|intros ?]) ].
  Lemma x_solve a : ext (k_solve_assumps E a).
  Proof. unfold k_solve_assumps, log_oracle_call. go0. Qed.
  Lemma x_limited a : ext (k_solve_limited E a).
  Proof. unfold k_solve_limited, log_oracle_call. go0. Qed.
  Lemma x_add_clauses cs : ext (add_clauses cs).
  Proof. unfold add_clauses. induction cs as [|c cs IH]; cbn [forM]; [apply x_ret|]. apply x_bind; [unfold add_clause; modify_tac|intros _; exact IH]. Qed.
  Lemma x_solution : ext oracle_solution.
  Proof. unfold oracle_solution. go0. destruct a1; go0. Qed.
  Lemma x_core : ext oracle_core.
  Proof. unfold oracle_core. go0. destruct a; go0. Qed.
  Lemma x_loop {S A} (body : S -> M (S + A)) n : (forall x, ext (body x)) -> forall x, ext (loop n body x).
  Proof.
    intros H. induction n as [|n IH]; intros x; cbn [loop]; [apply x_throw|]. apply x_bind; [apply H|]. intros [y|a]; [apply IH|apply x_ret].
  Qed.
  Lemma x_foldM {A B} (f : B -> A -> M B) l : (forall b a, ext (f b a)) -> forall b, ext (foldM f l b).
  Proof.
    intros H. induction l as [|a l IH]; intros b; cbn [foldM]; [apply x_ret|].
    apply x_bind; [apply H|exact IH].
  Qed.
  Ltac one := first [ one0 | apply x_add_clauses | apply x_core | apply x_solution | apply x_solve | apply x_limited ].
  Ltac go := repeat first [ one | (apply x_bind; [|intros ?]) ].

  Lemma x_output d root oidx : ext (build_output T d root oidx).
  Proof.
    unfold build_output. apply x_bind; [gets_tac|]. intros n. destruct (ti_define T d root oidx n) as [[[d' l] cls] n']. go.
  Qed.
  Lemma x_exhaust_loop root n : forall d bound olit, ext (exhaust_loop T E n d root bound olit).
  Proof.
    induction n as [|n IH]; intros d bound olit; cbn [exhaust_loop]; [apply x_ret|].
    apply x_bind; [apply x_output|]. intros [d' l']. apply x_bind; [apply x_limited|]. intros [| |]; [apply x_ret|apply IH|apply x_ret].
  Qed.
  Lemma x_exhaust d root : ext (exhaust_core T E d root).
  Proof.
    unfold exhaust_core. apply x_bind; [gets_tac|]. intros o. destruct (negb (o_core_exhaustion o)).
    - apply x_bind; [apply x_output|]. intros x. apply x_ret.
    - apply x_bind; [apply x_emit|]. intros _. apply x_bind; [apply x_guard|]. intros _.
      apply x_bind; [apply x_exhaust_loop|]. intros x. go.
  Qed.
  Lemma x_minimize core : ext (minimize_core E core).
  Proof.
    unfold minimize_core. apply x_bind; [gets_tac|]. intros o. destruct (negb (o_core_minimization o)); [apply x_ret|].
    destruct (length core <=? 1); [apply x_ret|]. apply x_bind; [apply x_emit|]. intros _. apply x_bind; [|intros x; go].
    apply x_foldM. intros b a. unfold minimize_step. apply x_bind; [apply x_limited|]. intros [| |]; go.
  Qed.
  Lemma x_trim core : ext (trim_core E core).
  Proof.
    unfold trim_core. apply x_bind; [gets_tac|]. intros o. destruct (negb (o_core_trimming o)); [apply x_ret|].
    destruct (length core <=? 1); [apply x_ret|]. apply x_bind; [apply x_emit|]. intros _. apply x_bind; [|intros x; go].
    apply x_loop. intros x. unfold trim_body. destruct (length x <=? 1); [apply x_ret|].
    apply x_bind; [apply x_solve|]. intros r. apply x_bind; [apply x_guard|]. intros _. apply x_bind; [apply x_core|]. intros c'.
    destruct (length c' =? length x); apply x_ret.
  Qed.
  Lemma x_reform cs x cd : ext (reform_core T E cs x cd).
  Proof.
    destruct x as [[rf d] assumps]. unfold reform_core. destruct (ti_merge T d _) as [d1 c].
    apply x_bind; [apply x_guard|]. intros _. apply x_bind; [apply x_guard|]. intros _.
    apply x_bind; [apply x_exhaust|]. intros [[d2 olit] oidx].
    apply x_bind; [destruct (1 <? oidx); go|]. intros off. destruct (oidx <? ti_len T d2 (cn_id c)); go.
  Qed.
  Lemma x_relax cw x olit : ext (relax_lit T cw x olit).
  Proof.
    destruct x as [[[rf d] assumps] cs]. unfold relax_lit. apply x_bind; [apply x_unwrap|]. intros [i w].
    destruct (hm_get olit (rf_refs rf)) as [[root oidx tw]|].
    - destruct (0 <? w); [apply x_ret|]. destruct (ti_len T d root <=? oidx + 1); [apply x_ret|].
      apply x_bind; [apply x_output|]. intros [d' l']. go.
    - destruct (ti_leaf T d olit). apply x_ret.
  Qed.
  Lemma x_unsat x : ext (oll_unsat T E x).
  Proof.
    destruct x as [rf d assumps cores cs]. unfold oll_unsat. apply x_bind; [apply x_core|]. intros core.
    destruct core as [|l core]; [go|]. cbv zeta. apply x_bind; [apply x_minimize|]. intros c1.
    apply x_bind; [apply x_trim|]. intros c2. apply x_bind; [apply x_unwrap|]. intros cw. apply x_bind; [apply x_unwrap|]. intros off.
    apply x_bind; [apply x_emit|]. intros _. apply x_bind; [apply x_foldM; intros b a; apply x_relax|]. intros [[[rf' d'] a'] ncs].
    apply x_bind; [apply x_guard|]. intros _. destruct (1 <? length ncs); apply x_ret.
  Qed.
  Lemma x_sat x : ext (oll_sat T E x).
  Proof.
    destruct x as [rf d assumps cores cs]. unfold oll_sat. destruct cores as [|c cores].
    - apply x_bind; [apply x_solution|]. intros sol. cbv zeta. apply x_bind; [gets_tac|]. intros n.
      destruct (reserve_outputs T (rf_refs rf) d n) as [d' n']. go.
    - apply x_bind; [apply x_foldM; intros b a; apply x_reform|]. intros [[rf' d'] a']. apply x_ret.
  Qed.
  Lemma x_body x : ext (oll_body T E x).
  Proof.
    destruct x as [rf d assumps cores cs]. unfold oll_body. apply x_bind; [apply x_unwrap|]. intros [i a]. cbv zeta.
    apply x_bind; [apply x_solve|]. intros [| |]; [apply x_sat|apply x_unsat|apply x_throw].
  Qed.
  Lemma x_oll rf d : ext (oll T E rf d).
  Proof.
    unfold oll. destruct (rf_inact rf) as [m|l a|]; [| |apply x_bind; [apply x_solve|]; intros [| |]; go];
      (apply x_bind; [apply x_emit|]; intros _; apply x_loop; intros x; apply x_body).
  Qed.
  Lemma x_boost_loop n : forall k acc, ext (core_boost_loop T E n k acc).
  Proof.
    induction n as [|n IH]; intros k acc; cbn [core_boost_loop]; [apply x_ret|].
    apply x_bind; [gets_tac|]. intros o. apply x_bind; [apply x_unwrap|]. intros ob. apply x_bind.
    - destruct (obj_is_constant ob); [apply x_ret|]. apply x_bind; [apply x_oll|]. intros [[rf d] [sol|]]; apply x_ret.
    - intros [[rf d]|]; [|apply x_ret]. apply x_bind; [modify_tac|]. intros _. apply IH.
  Qed.
  Lemma x_kernel : ext (kernel_core_boost T E).
  Proof.
    unfold kernel_core_boost. apply x_bind; [apply x_emit|]. intros _. apply x_bind; [gets_tac|]. intros n.
    apply x_bind; [apply x_boost_loop|]. intros r. go.
  Qed.
  Lemma x_merge_lit rebase refs x lw : ext (merge_lit T rebase refs x lw).
  Proof.
    destruct x as [[d cs] mlw], lw as [l w]. unfold merge_lit. cbv zeta. destruct (hm_get l refs) as [[root oidx tw]|].
    - go.
    - destruct (ti_leaf T d l). apply x_ret.
  Qed.
  Lemma x_merge_cons d cs off mlw : ext (merge_cons T d cs off mlw).
  Proof.
    unfold merge_cons. destruct (ti_merge_thorough T d cs) as [d' root]. destruct (cn_mult root =? 1); [|apply x_ret].
    destruct (ti_kind T d' (cn_id root)); go.
  Qed.
  Lemma x_merge_reform rf d rebase : ext (merge_reform T rf d rebase).
  Proof.
    unfold merge_reform. destruct (rf_inact rf); [| |apply x_ret];
      (apply x_bind; [apply x_foldM; intros b a; apply x_merge_lit|]; intros [[d' cs] mlw]; apply x_merge_cons).
  Qed.
  Lemma x_merge_loop opts rs : forall k, ext (merge_loop T E opts k rs).
  Proof.
    induction rs as [|[rf d] rs IH]; intros k; cbn [merge_loop]; [apply x_ret|]. cbv zeta.
    apply x_bind; [gets_tac|]. intros o. apply x_bind; [apply x_unwrap|]. intros ob. apply x_bind.
    - destruct (obj_is_constant ob); [apply x_ret|]. apply x_bind; [apply x_merge_reform|]. intros e. modify_tac.
    - intros _. apply x_bind; [apply x_check|]. intros _. apply IH.
  Qed.
  Lemma x_reset b : ext (reset_oracle E b).
  Proof.
    unfold reset_oracle. apply x_bind; [gets_tac|]. intros o. apply x_bind; [destruct (o_store_cnf o); go|]. intros _.
    apply x_bind; [apply x_emit|]. intros _. apply x_bind; [destruct b; go|]. intros _.
    apply x_bind; [gets_tac|]. intros c. apply x_bind; [apply x_unwrap|]. intros c'. apply x_bind; [modify_tac|]. intros _.
    apply x_bind; [destruct b; go|]. intros _. apply x_emit.
  Qed.
  Lemma x_boost opts : ext (alg_core_boost T E opts).
  Proof.
    unfold alg_core_boost. apply x_bind; [gets_tac|]. intros n. apply x_bind; [destruct (n =? 0); go|]. intros _.
    apply x_bind; [apply x_kernel|]. intros [rs|]; [|apply x_ret]. apply x_bind; [apply x_check|]. intros _.
    apply x_bind; [destruct (cb_reset opts); [apply x_bind; [apply x_reset|]; intros _; apply x_check|apply x_ret]|]. intros _.
    apply x_bind; [apply x_emit|]. intros _. apply x_bind; [apply x_merge_loop|]. intros _. go.
  Qed.
  (** ** Inprocessing *)
  Variable reset_enc : ti_db T -> ti_db T.
  Lemma x_ip_soft outs x cw : ext (ip_soft T outs x cw).
  Proof.
    destruct x as [[[d cs] ts] mlw], cw as [cl w]. unfold ip_soft. destruct cl as [|l [|l' cl]]; [apply x_throw| |apply x_throw].
    cbv zeta. destruct (hm_get (lnot l) outs) as [[root oidx tw]|].
    - destruct (w <? tw); [apply x_ret|]. destruct (tots_get root ts) as [[dat tw']|]; go.
    - destruct (ti_leaf T d (lnot l)). apply x_ret.
  Qed.
  Lemma x_ip_tot cs t : ext (ip_tot cs t).
  Proof. destruct t as [root [dat w]]. unfold ip_tot. destruct (ip_scan 0 dat None None) as [[off len]|]; [apply x_ret|apply x_throw]. Qed.
  Lemma x_ip_build os : forall k kept, ext (ip_build T E k os kept).
  Proof.
    induction os as [|[softs off] os IH]; intros k kept; cbn [ip_build]; [apply x_ret|]. destruct kept as [|ik kept]; [apply x_ret|].
    apply x_bind; [apply x_guard|]. intros _. destruct softs as [|sf softs].
    - apply x_bind; [gets_tac|]. intros o. apply x_bind; [apply x_unwrap|]. intros ob. apply x_bind; [modify_tac|]. intros _. apply IH.
    - apply x_bind; [apply x_foldM; intros b a; apply x_ip_soft|]. intros [[[d cs] ts] mlw].
      apply x_bind; [apply x_emit|]. intros _. apply x_bind; [apply x_foldM; intros b a; apply x_ip_tot|]. intros cs'.
      apply x_bind; [apply x_check|]. intros _. apply x_bind; [apply x_merge_cons|]. intros e.
      apply x_bind; [apply x_emit|]. intros _. apply x_bind; [apply IH|]. intros r. apply x_ret.
  Qed.
  Lemma x_inprocess ip rs : ext (inprocess T E reset_enc ip rs).
  Proof.
    unfold inprocess. apply x_bind; [gets_tac|]. intros o. apply x_bind; [destruct (o_store_cnf o); go|]. intros _.
    apply x_bind; [modify_tac|]. intros _. apply x_bind; [gets_tac|]. intros c. apply x_bind; [apply x_unwrap|]. intros cnf.
    apply x_bind; [gets_tac|]. intros vm. destruct (ip_collect T reset_enc rs cnf (vm_next vm)) as [[[cnf' nx] objs] kept].
    apply x_bind; [modify_tac|]. intros _. apply x_bind; [apply x_emit|]. intros _. cbv zeta.
    apply x_bind; [apply x_emit|]. intros _. apply x_bind; [apply x_emit|]. intros _. apply x_bind; [apply x_check|]. intros _.
    apply x_bind; [gets_tac|]. intros v. apply x_bind; [apply x_unwrap|]. intros v'. apply x_bind; [apply x_add_clauses|]. intros _.
    apply x_bind; [apply x_check|]. intros _. apply x_ip_build.
  Qed.
  Lemma x_inpro al ip : ext (alg_core_boost_inpro T E reset_enc al ip).
  Proof.
    unfold alg_core_boost_inpro. apply x_bind; [gets_tac|]. intros n. apply x_bind; [destruct (n =? 0); go|]. intros _.
    apply x_bind; [apply x_kernel|]. intros [rs|]; [|apply x_ret]. apply x_bind; [apply x_check|]. intros _.
    apply x_bind; [apply x_inprocess|]. intros es. apply x_bind.
    - unfold ip_store. destruct al; [modify_tac|modify_tac|]. destruct (rev es) as [|e1 [|e0 r]]; [apply x_throw|apply x_throw|modify_tac].
    - intros _. go.
  Qed.
End InproLog.
