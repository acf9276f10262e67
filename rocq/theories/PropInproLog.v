(** * What inprocessing counts and logs (C87, continued) *)
From Coq Require Import List Bool Arith Lia ZArith.
From Verif Require Import Base BaseLemmas Spec MTypes MKernel MOll MPrepro PreSpec MMaxPre MaxPreSpec MInpro InproSpec EncSpec ApiSpec Inst ExInst TotInst InproLog.
From Verif Require PropInpro PropInproOk.
Import ListNotations.

(** sum of the weights of the soft clauses of an objective *)
Definition weight_sum (o : soft_obj) : nat := list_sum (map snd (fst o)).
Lemma soft_range_sum o : soft_range o = weight_sum o.
Proof.
  unfold soft_range, weight_sum. assert (G : forall l a, fold_left (fun r (cw : clause * nat) => r + snd cw) l a = a + list_sum (map snd l)).
  { induction l as [|x l IH]; intros a; cbn [fold_left map list_sum fold_right]; [lia|]. rewrite IH. unfold list_sum. lia. }
  rewrite G. lia.
Qed.
Lemma softs_sum (os : list soft_obj) a : fold_left (fun n (o : soft_obj) => n + length (fst o)) os a = a + list_sum (map (fun o => length (fst o)) os).
Proof.
  revert a. induction os as [|x l IH]; intros a; cbn [fold_left map list_sum fold_right]; [lia|]. rewrite IH. unfold list_sum. lia.
Qed.
Lemma combine_both {A B} (f : A -> B) a b : map (fun x => (f (fst x), f (snd x))) (combine a b) = combine (map f a) (map f b).
Proof. revert b. induction a as [|x a IH]; intros [|y b]; cbn; [reflexivity|reflexivity|reflexivity|]. now rewrite IH. Qed.

Lemma bind_done {I A B} (c : M I A) (k : A -> M I B) s b s' : bind c k s = (Done b, s') ->
  exists a s1, c s = (Done a, s1) /\ k a s1 = (Done b, s').
Proof. unfold bind. destruct (c s) as [[a|x] s1]; [eauto|discriminate]. Qed.

(** the event inprocessing has to log: clauses before (with one for every soft clause) and after, fixed
    literals, and for every objective the sum of weights before and after *)
Definition inpro_event (ip : inprocessor) (cls : list clause) (os : list soft_obj) : event :=
  let r := ip cls os in
  EvInpro (length cls + list_sum (map (fun o => length (fst o)) os)) (ip_ncls r) (ip_nfixed r)
    (combine (map weight_sum os) (map weight_sum (mp_objs (ip_mp r)))).

Section Logged.
  Context {I : enc_impl} (T : tot_impl I) (E : environ) (re : ti_db T -> ti_db T) (ip : inprocessor).
  Notation st := (st I).
  Lemma tells_in (s s' : st) ev : tells s s' -> In ev (s_trace s) -> In ev (s_trace s').
  Proof. intros [_ [evs ->]] H. apply in_or_app. now right. Qed.
  Lemma inprocess_logged rs (s s' : st) es cnf cls nx os kept :
    inprocess T E re ip rs s = (Done es, s') -> s_logger s = true -> s_cnf s = Some cnf ->
    ip_collect T re rs cnf (vm_next (p_vm (s_prob s))) = (cls, nx, os, kept) ->
    In (inpro_event ip cls os) (s_trace s').
  Proof.
    intros H Hl Hc Hi. unfold inprocess in H.
    apply bind_done in H. destruct H as (o & s1 & H1 & H). injection H1 as <- <-.
    apply bind_done in H. destruct H as (u & s1 & H1 & H). destruct (o_store_cnf (s_opts s)); [|discriminate]. injection H1 as <- <-.
    apply bind_done in H. destruct H as (u & s1 & H1 & H). injection H1 as <- <-.
    apply bind_done in H. destruct H as (c & s1 & H1 & H). injection H1 as <- <-. cbn [s_cnf set_ora set_prob] in H. rewrite Hc in H.
    apply bind_done in H. destruct H as (c & s1 & H1 & H). injection H1 as <- <-.
    apply bind_done in H. destruct H as (vm & s1 & H1 & H). injection H1 as <- <-.
    cbn [s_prob set_ora set_prob p_vm set_cls] in H. rewrite Hi in H.
    apply bind_done in H. destruct H as (u' & s1 & H1 & H).
    assert (L1 : s_logger s1 = true) by (injection H1 as <- <-; exact Hl). clear H1.
    apply bind_done in H. destruct H as (u1 & s2 & H1 & H).
    assert (L2 : s_logger s2 = true).
    { pose proof (proj1 (x_emit E (EvStart RtInprocessing) s1)) as X. unfold log_start in H1. rewrite H1 in X. cbn [snd] in X. congruence. }
    cbv zeta in H. apply bind_done in H. destruct H as (u2 & s3 & H2 & H).
    assert (L3 : s_logger s3 = true).
    { pose proof (proj1 (x_emit E EvEnd s2)) as X. unfold log_end in H2. rewrite H2 in X. cbn [snd] in X. congruence. }
    apply bind_done in H. destruct H as (u3 & s4 & H3 & H).
    assert (L4 : In (inpro_event ip cls os) (s_trace s4)).
    { unfold emit in H3. rewrite L3 in H3. destruct (ev_logfail E _); [discriminate|]. injection H3 as <- <-. left.
      unfold inpro_event. rewrite softs_sum, <- !combine_both. f_equal. apply map_ext. intros [x y]. cbn [fst snd]. now rewrite !soft_range_sum. }
    match type of H with ?c s4 = _ => assert (X : tells s4 (snd (c s4))) end.
    { assert (G : forall c : M I (list (obj_enc I)), ext c -> tells s4 (snd (c s4))) by (intros c X; apply X). apply G.
      apply x_bind; [apply x_check|]. intros _. apply x_bind; [apply x_gets|]. intros v. apply x_bind; [apply x_unwrap|]. intros v'.
      apply x_bind; [apply x_add_clauses|]. intros _. apply x_bind; [apply x_check|]. intros _. apply x_ip_build. }
    rewrite H in X. cbn [snd] in X. eapply tells_in; eassumption.
  Qed.
End Logged.

(** if inprocessing returns, an attached logger was told the sizes of the instance MaxPre got and of
    the one it returned *)
Theorem C87_logged : forall I (T : tot_impl I) E re al ip (s s' : st I) cls os offs,
  s_logger s = true -> handed T E re s = Some (cls, os, offs) ->
  alg_core_boost_inpro T E re al ip s = (Done true, s') -> In (inpro_event ip cls os) (s_trace s').
Proof.
  intros I T E re al ip s s' cls os offs Hl Hh H. unfold alg_core_boost_inpro in H.
  apply bind_done in H. destruct H as (n & s1 & H1 & H). injection H1 as <- <-.
  apply bind_done in H. destruct H as (u & s1 & H1 & H). destruct (n_solve_calls (s_stats s) =? 0); [|discriminate]. injection H1 as <- <-.
  apply bind_done in H. destruct H as (r & s1 & H1 & H). unfold handed in Hh. rewrite H1 in Hh.
  destruct r as [rs|]; [|discriminate]. destruct (s_cnf s1) as [cnf|] eqn:ec; [|discriminate].
  destruct (ip_collect T re rs cnf (vm_next (p_vm (s_prob s1)))) as [[[cl nx] oo] kept] eqn:ei. injection Hh as -> -> _.
  pose proof (proj1 (x_kernel T E s)) as X. rewrite H1 in X. cbn [snd] in X.
  apply bind_done in H. destruct H as (u1 & s2 & H2 & H). unfold check_termination in H2. destruct (ev_flag E _); [discriminate|]. injection H2 as <- <-.
  apply bind_done in H. destruct H as (es & s3 & H3 & H).
  assert (G : In (inpro_event ip cls os) (s_trace s3)).
  { eapply inprocess_logged; [exact H3|cbn; congruence|exact ec|exact ei]. }
  apply bind_done in H. destruct H as (u2 & s4 & H4 & H).
  assert (G4 : In (inpro_event ip cls os) (s_trace s4)).
  { unfold ip_store in H4. destruct al; [injection H4 as <- <-; exact G|injection H4 as <- <-; exact G|].
    destruct (rev es) as [|e1 [|e0 l]]; [discriminate|discriminate|]. injection H4 as <- <-. exact G. }
  apply bind_done in H. destruct H as (u3 & s5 & H5 & H). unfold check_termination in H5. destruct (ev_flag E _); [discriminate|]. injection H5 as <- <-.
  injection H as <-. exact G4.
Qed.
Print Assumptions C87_logged.

(** ** Outputs that MaxPre removed

    The flags say which outputs of a totalizer are left.  They have to be consecutive; the connection
    then counts exactly these, with the weight of the totalizer, and otherwise inprocessing panics. *)
Definition consecutive (dat : list bool) (o n m : nat) : Prop := dat = repeat false o ++ repeat true n ++ repeat false m.
Lemma scan_false k o dat : ip_scan k (repeat false o ++ dat) None None = ip_scan (o + k) dat None None.
Proof. revert k. induction o as [|o IH]; intros k; cbn [repeat app ip_scan]; [reflexivity|]. cbn [andb]. rewrite IH. f_equal. lia. Qed.
Lemma scan_true n : forall k o dat, o <= k -> ip_scan k (repeat true n ++ dat) (Some o) None = ip_scan (n + k) dat (Some o) None.
Proof.
  induction n as [|n IH]; intros k o dat H; cbn [repeat app ip_scan]; [reflexivity|]. cbn [andb].
  rewrite Nat.min_r by exact H. rewrite IH by lia. f_equal. lia.
Qed.
(* the limit is the last inactive position minus the offset, or the one found before *)
Lemma scan_tail m : forall k o len, o < k -> ip_scan k (repeat false m) (Some o) len =
  Some (Some o, match m with 0 => len | S m' => Some (k + m' - o) end).
Proof.
  induction m as [|m IH]; intros k o len H; cbn [repeat ip_scan]; [reflexivity|]. cbn [andb].
  replace (o <? k) with true by (symmetry; apply Nat.ltb_lt; exact H). rewrite IH by lia. destruct m; do 2 f_equal; f_equal; lia.
Qed.
Lemma split_scan dat : (exists o n m, 0 < n /\ consecutive dat o n m) \/ (forall b, In b dat -> b = false) \/
  (exists o n m r, dat = repeat false o ++ repeat true (S n) ++ repeat false (S m) ++ true :: r).
Proof.
  unfold consecutive. induction dat as [|b dat IH]; [right; left; intros b []|].
  destruct IH as [(o & n & m & Hn & ->)|[Hf|(o & n & m & r & ->)]].
  - destruct b.
    + destruct o as [|o].
      * left. exists 0, (S n), m. split; [lia|reflexivity].
      * destruct n as [|n]; [lia|]. right. right. exists 0, 0, o, (repeat true n ++ repeat false m).
        cbn [repeat app]. reflexivity.
    + left. exists (S o), n, m. split; [exact Hn|reflexivity].
  - destruct b.
    + left. exists 0, 1, (length dat). split; [lia|]. cbn. f_equal. clear -Hf. induction dat as [|c dat IH]; cbn; [reflexivity|].
      f_equal; [apply Hf; now left|apply IH; intros b H; apply Hf; now right].
    + right. left. intros c [<-|H]; [reflexivity|now apply Hf].
  - destruct b.
    + destruct o as [|o].
      * right. right. exists 0, (S n), m, r. reflexivity.
      * right. right. exists 0, 0, o, (repeat true n ++ repeat false (S m) ++ true :: r). reflexivity.
    + right. right. exists (S o), n, m, r. reflexivity.
Qed.
Lemma scan_gap o n m r : ip_scan 0 (repeat false o ++ repeat true (S n) ++ repeat false (S m) ++ true :: r) None None = None.
Proof.
  rewrite scan_false. cbn [repeat app ip_scan andb]. rewrite scan_true by lia.
  assert (G : forall m k q len, q < k -> ip_scan k (repeat false m ++ true :: r) (Some q) (Some len) = None).
  { clear. induction m as [|m IH]; intros k q len H; cbn [repeat app ip_scan andb]; [reflexivity|].
    replace (q <? k) with true by (symmetry; apply Nat.ltb_lt; exact H). apply IH. lia. }
  cbn [ip_scan andb]. rewrite Nat.add_0_r. replace (o <? n + S o) with true by (symmetry; apply Nat.ltb_lt; lia). apply G. lia.
Qed.
Lemma scan_ok o n m : 0 < n -> ip_scan 0 (repeat false o ++ repeat true n ++ repeat false m) None None =
  Some (Some o, match m with 0 => None | S m' => Some (n + m') end).
Proof.
  intros Hn. destruct n as [|n]; [lia|]. rewrite scan_false. cbn [repeat app ip_scan andb]. rewrite scan_true by lia.
  rewrite Nat.add_0_r, scan_tail by lia. destruct m as [|m]; do 2 f_equal. f_equal. lia.
Qed.

(** outputs left over that are not consecutive make inprocessing panic *)
Theorem C87_gap_panics : forall I root w dat (cs : list con) (s : st I), In true dat ->
  (forall o n m, ~ consecutive dat o n m) -> ip_tot cs (root, (dat, w)) s = (Exit EPanic, s).
Proof.
  intros I root w dat cs s Ht Hc. unfold ip_tot. destruct (split_scan dat) as [(o & n & m & _ & H)|[H|(o & n & m & r & ->)]].
  - now apply Hc in H.
  - now specialize (H _ Ht).
  - now rewrite scan_gap.
Qed.
Print Assumptions C87_gap_panics.

(** otherwise the connection starts at the first output left over and has the weight of the
    totalizer; if at most one output was removed at the end it ends at the last one left over *)
Theorem C87_kept_outputs : forall I root w dat o n m (cs : list con) (s : st I), 0 < n -> consecutive dat o n m ->
  exists c, ip_tot cs (root, (dat, w)) s = (Done (cs ++ [c]), s) /\ cn_id c = root /\ cn_off c = o /\ cn_mult c = w /\
    (m = 0 -> cn_limit c = None) /\ (m = 1 -> cn_limit c = Some n) /\
    (forall l, cn_limit c = Some l -> n <= l).
Proof.
  intros I root w dat o n m cs s Hn ->. unfold ip_tot. rewrite scan_ok by exact Hn.
  destruct m as [|m]; eexists; (split; [reflexivity|]); cbn; repeat split; try discriminate.
  - intros H. f_equal. lia.
  - intros l H. injection H as <-. lia.
Qed.
Print Assumptions C87_kept_outputs.

(** if more outputs were removed at the end, the connection counts all of them but the last: the
    length is set again at every removed output (coreboosting.rs 406-408) *)
Theorem C87_removed_outputs_counted_refuted :
  exists root w dat o n m c, consecutive dat o n m /\ 0 < n /\
    (forall (s : st GI), ip_tot [] (root, (dat, w)) s = (Done [c], s)) /\ cn_limit c = Some (n + 1) /\ nth (o + n) dat true = false.
Proof.
  exists 7, 2, [false; true; false; false], 1, 1, 2, (con_limited 7 1 2 2).
  split; [reflexivity|]. split; [lia|]. split; [reflexivity|]. split; reflexivity.
Qed.
Print Assumptions C87_removed_outputs_counted_refuted.

(** ** Example: the run of C87 with a logger *)
Definition lg_run : option (option event * bool) :=
  match alg_new (I := GI) APMinimal ex_inst PropInproOk.ok_opts with
  | Some s0 =>
      let s := set_logger true s0 in
      match handed TI (env true 300) tkeep s with
      | Some (cls, os, offs) =>
          let '(r, s') := alg_core_boost_inpro TI (env true 300) tkeep APMinimal PropInpro.id_ip s in
          Some (find (fun ev => match ev with EvInpro _ _ _ _ => true | _ => false end) (s_trace s'),
                match r with Done true => true | _ => false end)
      | None => None
      end
  | None => None
  end.
Example C87_example_logged : lg_run = Some (Some (EvInpro 15 8 0 [(4, 4); (3, 3)]), true).
Proof. vm_compute. reflexivity. Qed.
