(** * Two runs of core boosting side by side *)
From Coq Require Import List Bool Arith Lia ZArith.
From Verif Require Import Base BaseLemmas MTypes MKernel MOll MInpro ApiSpec Struct SyncSpec SyncThm.
Import ListNotations.

Section SyncOll.
  Context {I : enc_impl} (T : tot_impl I).
  Notation M := (M I).
  Notation st := (st I).
  Variables E E0 : environ.
  Hypothesis D : disturbs E E0.
  Variable lock : Prop.
  Hypothesis K_oracle : lock -> forall q, ev_oracle E q = ev_oracle E0 q.
  Hypothesis K_flag : lock -> forall n, ev_flag E n = ev_flag E0 n.
  Hypothesis K_log : lock -> forall n, ev_logfail E n = false.
  Hypothesis K_fuel : lock -> ev_fuel E = ev_fuel E0.
  Notation rel := (rel (I := I) lock).

  Lemma o_bind {A B} (c c0 : M A) (k k0 : A -> M B) : rel c c0 -> (forall a, rel (k a) (k0 a)) -> rel (bind c k) (bind c0 k0).
  Proof. exact (r_bind lock c c0 k k0). Qed.
  Lemma o_emit ev : rel (emit E ev) (emit E0 ev).
  Proof. apply r_emit; assumption. Qed.
  Lemma o_check : rel (check_termination E) (check_termination E0).
  Proof. apply r_check; assumption. Qed.
  Lemma o_solve a : rel (k_solve_assumps E a) (k_solve_assumps E0 a).
  Proof. apply r_solve; assumption. Qed.
  Lemma o_limited a : rel (k_solve_limited E a) (k_solve_limited E0 a).
  Proof. apply r_solve_b; assumption. Qed.
  Lemma o_loop {S A} (body body0 : S -> M (S + A)) x : (forall x, rel (body x) (body0 x)) ->
    rel (loop (ev_fuel E) body x) (loop (ev_fuel E0) body0 x).
  Proof. apply r_loop; assumption. Qed.
  Lemma o_foldM {A B} (f f0 : B -> A -> M B) l : (forall b a, rel (f b a) (f0 b a)) -> forall b, rel (foldM f l b) (foldM f0 l b).
  Proof.
    intros H. induction l as [|a l IH]; intros b; cbn [foldM]; [apply r_ret|].
    apply o_bind; [apply H|exact IH].
  Qed.

  Ltac modify_tac := apply r_modify;
    [intros ? ? [[] [? ?]]; split; [constructor; cbn; congruence|split; assumption]|reflexivity].
  Ltac gets_tac := apply r_gets; intros ? ? []; congruence.
  Ltac one := first
    [ apply r_ret | apply r_throw | apply r_guard | apply r_unwrap | apply r_or_err | apply o_emit | apply o_check
    | gets_tac | modify_tac | apply r_add_clauses | apply r_core | apply r_solution | apply o_solve | apply o_limited ].
  Ltac go := repeat first [ one | (apply o_bind; [|intros ?]) ].
  Ltac cases := repeat first [ one | apply o_bind; [|intros ?]
    | match goal with
      | |- rel (match ?x with _ => _ end) _ => destruct x
      | |- context [let '(_, _) := ?x in _] => destruct x
      end ].

  Lemma o_output d root oidx : rel (build_output T d root oidx) (build_output T d root oidx).
  Proof.
    unfold build_output. apply o_bind; [gets_tac|]. intros n. destruct (ti_define T d root oidx n) as [[[d' l] cls] n']. go.
  Qed.
  Lemma o_exhaust_loop root n : forall d bound olit, rel (exhaust_loop T E n d root bound olit) (exhaust_loop T E0 n d root bound olit).
  Proof.
    induction n as [|n IH]; intros d bound olit; cbn [exhaust_loop]; [apply r_ret|].
    apply o_bind; [apply o_output|]. intros [d' l']. apply o_bind; [apply o_limited|]. intros [| |]; [apply r_ret|apply IH|apply r_ret].
  Qed.
  Lemma o_exhaust d root : rel (exhaust_core T E d root) (exhaust_core T E0 d root).
  Proof.
    unfold exhaust_core. apply o_bind; [gets_tac|]. intros o. destruct (negb (o_core_exhaustion o)).
    - apply o_bind; [apply o_output|]. intros x. apply r_ret.
    - apply o_bind; [apply o_emit|]. intros _. apply o_bind; [apply r_guard|]. intros _.
      apply o_bind; [apply o_exhaust_loop|]. intros x. go.
  Qed.
  Lemma o_minimize core : rel (minimize_core E core) (minimize_core E0 core).
  Proof.
    unfold minimize_core. apply o_bind; [gets_tac|]. intros o. destruct (negb (o_core_minimization o)); [apply r_ret|].
    destruct (length core <=? 1); [apply r_ret|]. apply o_bind; [apply o_emit|]. intros _. apply o_bind; [|intros x; go].
    apply o_foldM. intros b a. unfold minimize_step. apply o_bind; [apply o_limited|]. intros [| |]; go.
  Qed.
  Lemma o_trim core : rel (trim_core E core) (trim_core E0 core).
  Proof.
    unfold trim_core. apply o_bind; [gets_tac|]. intros o. destruct (negb (o_core_trimming o)); [apply r_ret|].
    destruct (length core <=? 1); [apply r_ret|]. apply o_bind; [apply o_emit|]. intros _. apply o_bind; [|intros x; go].
    apply o_loop. intros x. unfold trim_body. destruct (length x <=? 1); [apply r_ret|].
    apply o_bind; [apply o_solve|]. intros r. apply o_bind; [apply r_guard|]. intros _. apply o_bind; [apply r_core|]. intros c'.
    destruct (length c' =? length x); apply r_ret.
  Qed.
  Lemma o_reform cs x cd : rel (reform_core T E cs x cd) (reform_core T E0 cs x cd).
  Proof.
    destruct x as [[rf d] assumps]. unfold reform_core. destruct (ti_merge T d _) as [d1 c].
    apply o_bind; [apply r_guard|]. intros _. apply o_bind; [apply r_guard|]. intros _.
    apply o_bind; [apply o_exhaust|]. intros [[d2 olit] oidx].
    apply o_bind; [destruct (1 <? oidx); go|]. intros off. destruct (oidx <? ti_len T d2 (cn_id c)); go.
  Qed.
  Lemma o_relax cw x olit : rel (relax_lit T cw x olit) (relax_lit T cw x olit).
  Proof.
    destruct x as [[[rf d] assumps] cs]. unfold relax_lit. apply o_bind; [apply r_unwrap|]. intros [i w].
    destruct (hm_get olit (rf_refs rf)) as [[root oidx tw]|].
    - destruct (0 <? w); [apply r_ret|]. destruct (ti_len T d root <=? oidx + 1); [apply r_ret|].
      apply o_bind; [apply o_output|]. intros [d' l']. go.
    - destruct (ti_leaf T d olit). apply r_ret.
  Qed.
  Lemma o_unsat x : rel (oll_unsat T E x) (oll_unsat T E0 x).
  Proof.
    destruct x as [rf d assumps cores cs]. unfold oll_unsat. apply o_bind; [apply r_core|]. intros core.
    destruct core as [|l core]; [go|]. cbv zeta. apply o_bind; [apply o_minimize|]. intros c1.
    apply o_bind; [apply o_trim|]. intros c2. apply o_bind; [apply r_unwrap|]. intros cw. apply o_bind; [apply r_unwrap|]. intros off.
    apply o_bind; [apply o_emit|]. intros _. apply o_bind; [apply o_foldM; intros b a; apply o_relax|]. intros [[[rf' d'] a'] ncs].
    apply o_bind; [apply r_guard|]. intros _. destruct (1 <? length ncs); apply r_ret.
  Qed.
  Lemma o_sat x : rel (oll_sat T E x) (oll_sat T E0 x).
  Proof.
    destruct x as [rf d assumps cores cs]. unfold oll_sat. destruct cores as [|c cores].
    - apply o_bind; [apply r_solution|]. intros sol. cbv zeta. apply o_bind; [gets_tac|]. intros n.
      destruct (reserve_outputs T (rf_refs rf) d n) as [d' n']. go.
    - apply o_bind; [apply o_foldM; intros b a; apply o_reform|]. intros [[rf' d'] a']. apply r_ret.
  Qed.
  Lemma o_body x : rel (oll_body T E x) (oll_body T E0 x).
  Proof.
    destruct x as [rf d assumps cores cs]. unfold oll_body. apply o_bind; [apply r_unwrap|]. intros [i a]. cbv zeta.
    apply o_bind; [apply o_solve|]. intros [| |]; [apply o_sat|apply o_unsat|apply r_throw].
  Qed.
  Lemma o_oll rf d : rel (oll T E rf d) (oll T E0 rf d).
  Proof.
    unfold oll. destruct (rf_inact rf) as [m|l a|]; [| |apply o_bind; [apply o_solve|]; intros [| |]; go];
      (apply o_bind; [apply o_emit|]; intros _; apply o_loop; intros x; apply o_body).
  Qed.
  Lemma o_boost_loop n : forall k acc, rel (core_boost_loop T E n k acc) (core_boost_loop T E0 n k acc).
  Proof.
    induction n as [|n IH]; intros k acc; cbn [core_boost_loop]; [apply r_ret|].
    apply o_bind; [gets_tac|]. intros o. apply o_bind; [apply r_unwrap|]. intros ob. apply o_bind.
    - destruct (obj_is_constant ob); [apply r_ret|]. apply o_bind; [apply o_oll|]. intros [[rf d] [sol|]]; apply r_ret.
    - intros [[rf d]|]; [|apply r_ret]. apply o_bind; [modify_tac|]. intros _. apply IH.
  Qed.
  Lemma o_kernel : rel (kernel_core_boost T E) (kernel_core_boost T E0).
  Proof.
    unfold kernel_core_boost. apply o_bind; [apply o_emit|]. intros _. apply o_bind; [gets_tac|]. intros n.
    apply o_bind; [apply o_boost_loop|]. intros r. go.
  Qed.
  Lemma o_merge_lit rebase refs x lw : rel (merge_lit T rebase refs x lw) (merge_lit T rebase refs x lw).
  Proof.
    destruct x as [[d cs] mlw], lw as [l w]. unfold merge_lit. cbv zeta. destruct (hm_get l refs) as [[root oidx tw]|].
    - go.
    - destruct (ti_leaf T d l). apply r_ret.
  Qed.
  Lemma o_merge_cons d cs off mlw : rel (merge_cons T d cs off mlw) (merge_cons T d cs off mlw).
  Proof.
    unfold merge_cons. destruct (ti_merge_thorough T d cs) as [d' root]. destruct (cn_mult root =? 1); [|apply r_ret].
    destruct (ti_kind T d' (cn_id root)); go.
  Qed.
  Lemma o_merge_reform rf d rebase : rel (merge_reform T rf d rebase) (merge_reform T rf d rebase).
  Proof.
    unfold merge_reform. destruct (rf_inact rf); [| |apply r_ret];
      (apply o_bind; [apply o_foldM; intros b a; apply o_merge_lit|]; intros [[d' cs] mlw]; apply o_merge_cons).
  Qed.
  Lemma o_merge_loop opts rs : forall k, rel (merge_loop T E opts k rs) (merge_loop T E0 opts k rs).
  Proof.
    induction rs as [|[rf d] rs IH]; intros k; cbn [merge_loop]; [apply r_ret|]. cbv zeta.
    apply o_bind; [gets_tac|]. intros o. apply o_bind; [apply r_unwrap|]. intros ob. apply o_bind.
    - destruct (obj_is_constant ob); [apply r_ret|]. apply o_bind; [apply o_merge_reform|]. intros e. modify_tac.
    - intros _. apply o_bind; [apply o_check|]. intros _. apply IH.
  Qed.
  Lemma o_reset b : rel (reset_oracle E b) (reset_oracle E0 b).
  Proof.
    unfold reset_oracle. apply o_bind; [gets_tac|]. intros o. apply o_bind; [destruct (o_store_cnf o); go|]. intros _.
    apply o_bind; [apply o_emit|]. intros _. apply o_bind; [destruct b; go|]. intros _.
    apply o_bind; [gets_tac|]. intros c. apply o_bind; [apply r_unwrap|]. intros c'. apply o_bind; [modify_tac|]. intros _.
    apply o_bind; [destruct b; go|]. intros _. apply o_emit.
  Qed.
  Lemma o_boost opts : rel (alg_core_boost T E opts) (alg_core_boost T E0 opts).
  Proof.
    unfold alg_core_boost. apply o_bind; [gets_tac|]. intros n. apply o_bind; [destruct (n =? 0); go|]. intros _.
    apply o_bind; [apply o_kernel|]. intros [rs|]; [|apply r_ret]. apply o_bind; [apply o_check|]. intros _.
    apply o_bind; [destruct (cb_reset opts); [apply o_bind; [apply o_reset|]; intros _; apply o_check|apply r_ret]|]. intros _.
    apply o_bind; [apply o_emit|]. intros _. apply o_bind; [apply o_merge_loop|]. intros _. go.
  Qed.
  (** ** Inprocessing *)
  Variable reset_enc : ti_db T -> ti_db T.
  Lemma o_ip_soft outs x cw : rel (ip_soft T outs x cw) (ip_soft T outs x cw).
  Proof.
    destruct x as [[[d cs] ts] mlw], cw as [cl w]. unfold ip_soft. destruct cl as [|l [|l' cl]]; [apply r_throw| |apply r_throw].
    cbv zeta. destruct (hm_get (lnot l) outs) as [[root oidx tw]|].
    - destruct (w <? tw); [apply r_ret|]. destruct (tots_get root ts) as [[dat tw']|]; go.
    - destruct (ti_leaf T d (lnot l)). apply r_ret.
  Qed.
  Lemma o_ip_tot cs t : rel (ip_tot cs t) (ip_tot cs t).
  Proof. destruct t as [root [dat w]]. unfold ip_tot. destruct (ip_scan 0 dat None None) as [[off len]|]; [apply r_ret|apply r_throw]. Qed.
  Lemma o_ip_build os : forall k kept, rel (ip_build T E k os kept) (ip_build T E0 k os kept).
  Proof.
    induction os as [|[softs off] os IH]; intros k kept; cbn [ip_build]; [apply r_ret|]. destruct kept as [|ik kept]; [apply r_ret|].
    apply o_bind; [apply r_guard|]. intros _. destruct softs as [|sf softs].
    - apply o_bind; [gets_tac|]. intros o. apply o_bind; [apply r_unwrap|]. intros ob. apply o_bind; [modify_tac|]. intros _. apply IH.
    - apply o_bind; [apply o_foldM; intros b a; apply o_ip_soft|]. intros [[[d cs] ts] mlw].
      apply o_bind; [apply o_emit|]. intros _. apply o_bind; [apply o_foldM; intros b a; apply o_ip_tot|]. intros cs'.
      apply o_bind; [apply o_check|]. intros _. apply o_bind; [apply o_merge_cons|]. intros e.
      apply o_bind; [apply o_emit|]. intros _. apply o_bind; [apply IH|]. intros r. apply r_ret.
  Qed.
  Lemma o_inprocess ip rs : rel (inprocess T E reset_enc ip rs) (inprocess T E0 reset_enc ip rs).
  Proof.
    unfold inprocess. apply o_bind; [gets_tac|]. intros o. apply o_bind; [destruct (o_store_cnf o); go|]. intros _.
    apply o_bind; [modify_tac|]. intros _. apply o_bind; [gets_tac|]. intros c. apply o_bind; [apply r_unwrap|]. intros cnf.
    apply o_bind; [gets_tac|]. intros vm. destruct (ip_collect T reset_enc rs cnf (vm_next vm)) as [[[cnf' nx] objs] kept].
    apply o_bind; [modify_tac|]. intros _. apply o_bind; [apply o_emit|]. intros _. cbv zeta.
    apply o_bind; [apply o_emit|]. intros _. apply o_bind; [apply o_emit|]. intros _. apply o_bind; [apply o_check|]. intros _.
    apply o_bind; [gets_tac|]. intros v. apply o_bind; [apply r_unwrap|]. intros v'. apply o_bind; [apply r_add_clauses|]. intros _.
    apply o_bind; [apply o_check|]. intros _. apply o_ip_build.
  Qed.
  Lemma o_inpro al ip : rel (alg_core_boost_inpro T E reset_enc al ip) (alg_core_boost_inpro T E0 reset_enc al ip).
  Proof.
    unfold alg_core_boost_inpro. apply o_bind; [gets_tac|]. intros n. apply o_bind; [destruct (n =? 0); go|]. intros _.
    apply o_bind; [apply o_kernel|]. intros [rs|]; [|apply r_ret]. apply o_bind; [apply o_check|]. intros _.
    apply o_bind; [apply o_inprocess|]. intros es. apply o_bind.
    - unfold ip_store. destruct al; [modify_tac|modify_tac|]. destruct (rev es) as [|e1 [|e0 r]]; [apply r_throw|apply r_throw|modify_tac].
    - intros _. go.
  Qed.
End SyncOll.
