(** * Model of inprocessing after core boosting (core/src/algs/coreboosting.rs 228-431; feature
    [maxpre], without [sol-tightening])

    MaxPre is external, as in MMaxPre.v.  The kernel keeps the MaxPre object in its field [inpro]
    (algs.rs 194-196), which nothing reads without the feature [sol-tightening]; the field is not
    part of the model's state. *)
From Coq Require Import List Bool Arith Lia ZArith.
From Verif Require Import Base Spec MTypes MKernel MOll ApiSpec MPrepro MMain MMaxPre.
Import ListNotations.

(** One run of MaxPre: the instance it hands back and the two numbers that are logged *)
Record inpro_run := mkIp { ip_mp : mp_out; ip_ncls : nat; ip_nfixed : nat }.
Definition inprocessor := list clause -> list soft_obj -> inpro_run.

(** [NodeCon::limited] *)
Definition con_limited (id off len weight : nat) : con := mkCon id off weight (Some len).

(** Sum of the weights, coreboosting.rs 317-320, 326-329 *)
Definition soft_range (o : soft_obj) : nat := fold_left (fun r cw => r + snd cw) (fst o) 0.

Section Inpro.
  Context {I : enc_impl} (T : tot_impl I) (E : environ).
  Notation db := (ti_db T).
  Notation M := (M I).
  Notation st := (st I).
  (** [reset_encoded(Semantics::IfAndOnlyIf)] of the totalizer database: the clauses of the
      database count as not yet built, its variables are kept *)
  Variable reset_enc : db -> db.

  (** *** The instance that is handed to MaxPre *)

  (** coreboosting.rs 281-304: one output of a totalizer; the state is the database, the clauses,
      the next variable, the known outputs and the soft clauses *)
  Definition ip_state : Type := db * list clause * nat * list (lit * reform_data) * list (clause * nat).
  Definition ip_output (root oidx tw w : nat) (x : ip_state) (idx : nat) : ip_state :=
    let '(d, cnf, nx, outs, softs) := x in
    let '(d', l, cl, nx') := ti_define T d root idx nx in
    if idx =? oidx then (d', cnf ++ cl, nx', outs, softs ++ [([lnot l], w)])
    else (d', cnf ++ cl, nx', hm_insert l (mkRd root idx tw) outs, softs ++ [([lnot l], tw)]).
  (** coreboosting.rs 273-309: one inactive literal *)
  Definition ip_lit (refs : list (lit * reform_data)) (x : ip_state) (lw : lit * nat) : ip_state :=
    let '(l, w) := lw in
    match hm_get l refs with
    | Some (mkRd root oidx tw) =>
        let '(d, _, _, _, _) := x in
        fold_left (ip_output root oidx tw w) (seq oidx (ti_len T d root - oidx)) x
    | None =>
        let '(d, cnf, nx, outs, softs) := x in (d, cnf, nx, outs, softs ++ [([lnot l], w)])
    end.
  (** coreboosting.rs 270-312: one objective *)
  Definition ip_obj (rf : reform) (d : db) (cnf : list clause) (nx : nat) : ip_state :=
    fold_left (ip_lit (rf_refs rf)) (in_iter (rf_inact rf)) (reset_enc d, cnf, nx, rf_refs rf, []).
  (** What is kept of an objective for the second half: its offset, its database and its outputs *)
  Record ip_kept := mkIk { ik_off : nat; ik_db : db; ik_outs : list (lit * reform_data) }.
  (** coreboosting.rs 264-313: all objectives *)
  Fixpoint ip_collect (rs : list (reform * db)) (cnf : list clause) (nx : nat)
    : list clause * nat * list soft_obj * list ip_kept :=
    match rs with
    | [] => (cnf, nx, [], [])
    | (rf, d) :: r =>
        let '(d', cnf', nx', outs, softs) := ip_obj rf d cnf nx in
        let '(cnf2, nx2, objs, kept) := ip_collect r cnf' nx' in
        (cnf2, nx2, (softs, 0%Z) :: objs, mkIk (rf_offset rf) d' outs :: kept)
    end.

  (** *** The encodings for the instance that MaxPre returns *)

  (** The map [tots_to_add] from nodes to the active outputs and a weight.  Its iteration order
      is that of the insertions in the model. *)
  Definition tots := list (nat * (list bool * nat)).
  Fixpoint tots_get (k : nat) (m : tots) : option (list bool * nat) :=
    match m with
    | [] => None
    | (k', v) :: r => if k =? k' then Some v else tots_get k r
    end.
  Fixpoint tots_set (k : nat) (v : list bool * nat) (m : tots) : tots :=
    match m with
    | [] => [(k, v)]
    | (k', v') :: r => if k =? k' then (k, v) :: r else (k', v') :: tots_set k v r
    end.

  (** coreboosting.rs 368-397: one soft clause of MaxPre's output *)
  Definition ip_soft (outs : list (lit * reform_data)) (x : db * list con * tots * nat)
      (cw : clause * nat) : M (db * list con * tots * nat) :=
    let '(d, cs, ts, mlw) := x in
    let '(cl, w) := cw in
    match cl with
    | [l] =>
        let mlw := Nat.max w mlw in
        let olit := lnot l in
        match hm_get olit outs with
        | Some (mkRd root oidx tw) =>
            if w <? tw then ret (d, cs ++ [con_single root (oidx + 1) w], ts, mlw)
            else
              match tots_get root ts with
              | Some (dat, tw') =>
                  guard (negb (nth oidx dat true)) ;;;
                  ret (d, cs, tots_set root (set_nth oidx true dat, tw') ts, mlw)
              | None =>
                  guard (oidx <? ti_len T d root) ;;;
                  ret (d, cs, tots_set root (set_nth oidx true (repeat false (ti_len T d root)), tw) ts, mlw)
              end
        | None =>
            let '(d', id) := ti_leaf T d olit in
            ret (d', cs ++ [con_weighted id w], ts, mlw)
        end
    | _ => throw EPanic
    end.
  (** coreboosting.rs 401-412: offset and length of the active outputs; [offset] starts as
      [usize::MAX], here [None] *)
  Fixpoint ip_scan (k : nat) (dat : list bool) (off len : option nat) : option (option nat * option nat) :=
    match dat with
    | [] => Some (off, len)
    | active :: r =>
        let off := if active then match off with None => Some k | Some o => Some (Nat.min k o) end else off in
        let len := if active then len
                   else match off with Some o => if o <? k then Some (k - o) else len | None => len end in
        if active && (match len with Some _ => true | None => false end) then None
        else ip_scan (S k) r off len
    end.
  (** coreboosting.rs 400-418: one totalizer; [throw EPanic] is "found gap in totalizer" *)
  Definition ip_tot (cs : list con) (t : nat * (list bool * nat)) : M (list con) :=
    let '(root, (dat, w)) := t in
    match ip_scan 0 dat None None with
    | None => throw EPanic
    | Some (off, len) =>
        let off := match off with Some o => o | None => usize_max tt end in
        ret (cs ++ [match len with
                    | Some n => con_limited root off n w
                    | None => con_offset_weighted root off w
                    end])
    end.
  (** coreboosting.rs 350-428: the loop over the objectives from index [k] on.  An objective that
      has no soft clauses left is made constant and gets no encoding (357-365). *)
  Fixpoint ip_build (k : nat) (os : list soft_obj) (kept : list ip_kept) : M (list (obj_enc I)) :=
    match os, kept with
    | (softs, off) :: os', ik :: kept' =>
        guard (0 <=? off)%Z ;;;
        match softs with
        | [] =>
            ob <- gets (fun s => nth_error (p_objs (s_prob s)) k) ;;
            ob <- unwrap ob ;;
            modify (fun s => set_prob (set_objs (set_nth k
              (OConstant (obj_offset ob + Z.of_nat (ik_off ik) + off) k (ik_off ik))
              (p_objs (s_prob s))) (s_prob s)) s) ;;;
            ip_build (S k) os' kept'
        | _ =>
            x <- foldM (ip_soft (ik_outs ik)) softs (ik_db ik, [], [], 0) ;;
            let '(d, cs, ts, mlw) := x in
            log_start E RtMergeEncodings ;;;
            cs <- foldM ip_tot ts cs ;;
            check_termination E ;;;
            e <- merge_cons T d cs (ik_off ik + Z.to_nat off) mlw ;;
            log_end E ;;;
            r <- ip_build (S k) os' kept' ;;
            ret (e :: r)
        end
    | _, _ => ret []
    end.

  (** coreboosting.rs 235-431 [inprocess], without proof logging (255) *)
  Definition inprocess (ip : inprocessor) (rs : list (reform * db)) : M (list (obj_enc I)) :=
    o <- gets s_opts ;;
    (if o_store_cnf o then ret tt else throw (EErr ErrApi)) ;;;
    modify (fun s => set_ora OIdle (set_prob (set_cls [] (s_prob s)) s)) ;;;
    cnf <- gets s_cnf ;;
    cnf <- unwrap cnf ;;
    vm <- gets (fun s => p_vm (s_prob s)) ;;
    let '(cnf, nx, objs, kept) := ip_collect rs cnf (vm_next vm) in
    modify (fun s => set_prob (set_vm (mkVm nx (vm_max_orig vm) (vm_max_enc vm)) (s_prob s)) s) ;;;
    log_start E RtInprocessing ;;;
    let run := ip cnf objs in
    let out := ip_mp run in
    log_end E ;;;
    emit E (EvInpro (length cnf + fold_left (fun n o => n + length (fst o)) objs 0) (ip_ncls run)
      (ip_nfixed run) (map (fun x => (soft_range (fst x), soft_range (snd x))) (combine objs (mp_objs out)))) ;;;
    check_termination E ;;;
    v <- gets (fun s => vm_max_var (p_vm (s_prob s))) ;;
    v <- unwrap v ;;
    add_clauses (mp_cls out) ;;;
    check_termination E ;;;
    ip_build 0 (mp_objs out) kept.

  (** pminimal.rs 371, lowerbounding.rs 360: the encodings are replaced; bioptsat.rs 300-302: the
      last two are taken, and a missing one is a panic *)
  Definition ip_store (al : alg) (es : list (obj_enc I)) : M unit :=
    match al with
    | ABiOptSat =>
        match rev es with
        | e1 :: e0 :: _ => modify (fun s => set_prob (set_encs [e0; e1] (s_prob s)) s)
        | _ => throw EPanic
        end
    | _ => modify (fun s => set_prob (set_encs es (s_prob s)) s)
    end.

  (** pminimal.rs 353-374, lowerbounding.rs 342-363, bioptsat.rs 282-306 [CoreBoost::core_boost]
      with [AfterCbOptions::Inpro] *)
  Definition alg_core_boost_inpro (al : alg) (ip : inprocessor) : M bool :=
    n <- gets (fun s => n_solve_calls (s_stats s)) ;;
    (if n =? 0 then ret tt else throw (EErr ErrApi)) ;;;
    r <- kernel_core_boost T E ;;
    match r with
    | None => ret false
    | Some rs =>
        check_termination E ;;;
        es <- inprocess ip rs ;;
        ip_store al es ;;;
        check_termination E ;;;
        ret true
    end.
End Inpro.
