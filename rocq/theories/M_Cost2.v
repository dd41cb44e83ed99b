(** M_Cost2.v -- the counting functions of M_Cost.v for the rest of the algorithms: PAMMEDSIL with its BUILD, PAMSIL,
    DynMSC and the parallel FasterPAM.  As there, every function has the same text as the function of the model
    with the same name (without [_n]) in M_Pammedsil.v, M_Pamsil.v, M_Dynmsc.v and M_ParFasterpam.v; that they
    compute the same results is proved in CostMore.v.  Not counted: what the debug assertions read. *)
From Verif Require Import Base Num M_Mat M_Util M_Fasterpam M_Pam M_Alternating M_Silhouette M_Msc M_Pammedsil M_Pamsil
  M_Dynmsc M_ParFasterpam M_Cost.
Set Implicit Arguments.
Open Scope cost_scope.

Section Cost2.
  Context {Nt Lt : Type} `{NumN Nt} `{NumL Lt} `{FromN Nt Lt}.
  Variable M : Mat Nt.

  (** ** M_Pammedsil.v *)
  (** pammedsil.rs:313-332, [build3_upd_obj] *)
  Definition build3_upd_obj_n (l bj : nat) (jrec : nat * Reco Nt) : cres (Reco Nt * Lt) :=
    let '(j, recj) := jrec in
    recj' <-
      (if j =? bj then cret (mkReco (DP (Some l) nzero) (near3 recj) (seco3 recj))
       else
         dj <- cget M j bj ;;
         cret (if nltb dj (dd (near3 recj)) then
               mkReco (DP (Some l) dj) (near3 recj) (seco3 recj)
             else if is_marker (di (seco3 recj)) || nltb dj (dd (seco3 recj)) then
               mkReco (near3 recj) (DP (Some l) dj) (seco3 recj)
             else if is_marker (di (third3 recj)) || nltb dj (dd (third3 recj)) then
               mkReco (near3 recj) (seco3 recj) (DP (Some l) dj)
             else recj)) ;;
    cret (recj', ratio (dd (near3 recj')) (dd (seco3 recj'))).

  (** pammedsil.rs:294-334, [build3_step] *)
  Definition build3_step_n (k : nat) (st : b3st Nt Lt) (l : nat) : cres (ctl (b3st Nt Lt)) :=
    best <- build_next_n M k (map (fun r => dd (near3 r)) (b3_data st))
                       (skipn 1 (map fst (enum (b3_data st)))) ;;
    if lleb lzero (fst best) then cret (Break st) else
    rs <- cmapM (build3_upd_obj_n l (snd best)) (enum (b3_data st)) ;;
    cret (Next (mkB3 (b3_meds st ++ [snd best]) (map fst rs)
                   (fold_left (fun s x => ladd s (snd x)) rs lzero))).

  (** pammedsil.rs:263-336, [pammedsil_build_initialize] *)
  Definition pammedsil_build_initialize_n (k : nat) : cres (b3st Nt Lt) :=
    best <- build_first_n M k ;;
    data <- cmapM (fun j => d <- cget M j (snd best) ;;
                           cret (mkReco (DP (Some 0) d) (DP None nzero) (DP None nzero)))
                 (seq 0 (mlen M)) ;;
    cforM (build3_step_n k) (seq 1 (k - 1)) (mkB3 [snd best] data (fst best)).

  (** pammedsil.rs:91-107, [pammedsil] *)
  Definition pammedsil_n (k : nat) (maxiter : nat) : cres (pam_result Lt) :=
    _ <- lift (check_input M k) ;;
    st <- pammedsil_build_initialize_n k ;;
    pammedsil_optimize_n M (b3_meds st) (b3_data st) maxiter (b3_loss st).

  (** ** M_Pamsil.v *)
  (** pamsil.rs:124-135, [pamsil_cand] *)
  Definition pamsil_cand_n (m medm : nat) (st : psst Lt) (j : nat) : cres (psst Lt) :=
    if j =? medm then cret st else
    aj <- lift (idx (ps_assi st) j) ;;
    mj <- lift (idx (ps_med st) aj) ;;
    if j =? mj then cret st else
    med' <- lift (upd (ps_med st) m j) ;;
    '(_, assi') <- assign_nearest_n (Lt := Lt) M med' ;;
    '(siltemp, _) <- silhouette_n M assi' false ;;
    if lleb siltemp (fst (ps_best st)) then cret (mkPs med' assi' (ps_best st))
    else cret (mkPs med' assi' (siltemp, Some (m, j))).

  (** pamsil.rs:122-137, [pamsil_pos] *)
  Definition pamsil_pos_n (st : psst Lt) (m : nat) : cres (psst Lt) :=
    medm <- lift (idx (ps_med st) m) ;;
    st' <- cfoldM (pamsil_cand_n m medm) (seq 0 (mlen M)) st ;;
    med' <- lift (upd (ps_med st') m medm) ;;
    cret (mkPs med' (ps_assi st') (ps_best st')).

  (** pamsil.rs:119-144, [pamsil_iteration] *)
  Definition pamsil_iteration_n (st : pslst Lt) : cres (ctl (pslst Lt)) :=
    s <- cfoldM pamsil_pos_n (seq 0 (length (pl_med st)))
               (mkPs (pl_med st) (pl_assi st) (lzero, None)) ;;
    if lleb (fst (ps_best s)) (pl_sil st) then
      cret (Break (mkPsl (ps_med s) (ps_assi s) (pl_sil st) (pl_swaps st) (S (pl_iter st))))
    else
      match snd (ps_best s) with
      | None => cpanic P_index
      | Some (b, j) =>
          med' <- lift (upd (ps_med s) b j) ;;
          cret (Next (mkPsl med' (ps_assi s) (fst (ps_best s)) (S (pl_swaps st)) (S (pl_iter st))))
      end.

  (** pamsil.rs:101-147, [pamsil_optimize] *)
  Definition pamsil_optimize_n (med assi : list nat) (maxiter : nat) : cres (pam_result Lt) :=
    if length med =? 1 then
      '(med', swapped, loss) <- choose_medoid_within_partition_n M assi med 0 ;;
      cret (mkPR loss assi 1 (if swapped then 1 else 0) med')
    else
    '(sil, _) <- silhouette_n M assi false ;;
    st <- cwhileM maxiter pamsil_iteration_n (mkPsl med assi sil 0 0) ;;
    '(_, assi') <- assign_nearest_n (Lt := Lt) M (pl_med st) ;;
    cret (mkPR (pl_sil st) assi' (pl_iter st) (pl_swaps st) (pl_med st)).

  (** pamsil.rs:37-52, [pamsil_swap] *)
  Definition pamsil_swap_n (med : list nat) (maxiter : nat) : cres (pam_result Lt) :=
    '(_, assi) <- assign_nearest_n (Lt := Lt) M med ;;
    pamsil_optimize_n med assi maxiter.

  (** pamsil.rs:202-212, [pamsil_upd_obj] *)
  Definition pamsil_upd_obj_n (bj : nat) (jd : nat * Nt) : cres Nt :=
    let '(j, dnear) := jd in
    if j =? bj then cret nzero
    else dj <- cget M j bj ;; cret (if nltb dj dnear then dj else dnear).

  (** pamsil.rs:183-214, [pamsil_build_step] *)
  Definition pamsil_build_step_n (k : nat) (st : list nat * list Nt) (_ : nat)
    : cres (list nat * list Nt) :=
    let '(meds, data) := st in
    best <- build_next_n (Lt := Lt) M k data (map fst (enum data)) ;;
    _ <- lift (assertb (lleb (fst best) lzero) P_assert) ;;
    data' <- cmapM (pamsil_upd_obj_n (snd best)) (enum data) ;;
    cret (meds ++ [snd best], data').

  (** pamsil.rs:150-216, [pamsil_build_initialize] *)
  Definition pamsil_build_initialize_n (k : nat) : cres (list nat) :=
    best <- build_first_n (Lt := Lt) M k ;;
    data <- cmapM (fun j => cget M j (snd best)) (seq 0 (mlen M)) ;;
    '(meds, _) <- cfoldM (pamsil_build_step_n k) (seq 1 (k - 1)) ([snd best], data) ;;
    cret meds.

  (** pamsil.rs:82-98, [pamsil] *)
  Definition pamsil_n (k : nat) (maxiter : nat) : cres (pam_result Lt) :=
    _ <- lift (check_input M k) ;;
    meds <- pamsil_build_initialize_n k ;;
    pamsil_optimize_n meds (repeat 0 (mlen M)) maxiter.

  (** ** M_Dynmsc.v *)
  (** dynmsc.rs:155-178, [update_third_nearest_without_new] *)
  Definition update_third_nearest_without_new_n (med : list nat) (n s b o : nat) : cres (dpair Nt) :=
    cfoldM (fun dist '(i, mi) =>
             if (i =? n) || (i =? s) then cret dist
             else d <- cget M o mi ;;
                  cret (if ieqb (di dist) b || nltb d (dd dist) then DP (Some i) d else dist))
          (enum med) (DP (Some b) nzero).

  (** dynmsc.rs:199-242, [remove_med_obj] *)
  Definition remove_med_obj_n (med : list nat) (l b : nat) (oreco : nat * Reco Nt)
    : cres (Reco Nt * Lt) :=
    let '(o, reco) := oreco in
    let ne := near3 reco in let se := seco3 reco in let th := third3 reco in
    reco' <-
      (if ieqb (di ne) b then
         let ne' := renumber l b se in let se' := renumber l b th in
         t <- update_third_nearest_without_new_n med (as_usize (di ne')) (as_usize (di se')) b o ;;
         cret (mkReco ne' se' t)
       else if ieqb (di se) b then
         let ne' := renumber l b ne in let se' := renumber l b th in
         t <- update_third_nearest_without_new_n med (as_usize (di ne')) (as_usize (di se')) b o ;;
         cret (mkReco ne' se' t)
       else if ieqb (di th) b then
         let ne' := renumber l b ne in let se' := renumber l b se in
         t <- update_third_nearest_without_new_n med (as_usize (di ne')) (as_usize (di se')) b o ;;
         cret (mkReco ne' se' t)
       else cret (mkReco (renumber l b ne) (renumber l b se) (renumber l b th))) ;;
    cret (reco', ratio (dd (near3 reco')) (dd (seco3 reco'))).

  (** dynmsc.rs:182-245, [remove_med] *)
  Definition remove_med_n (med : list nat) (data : list (Reco Nt)) (b : nat)
    : cres (list nat * list (Reco Nt) * Lt) :=
    let l := length med - 1 in
    _ <- lift (assertb (b <? length med) P_assert) ;;
    ml <- lift (idx med l) ;;
    med1 <- lift (upd med b ml) ;;
    let med' := firstn l med1 in
    rs <- cmapM (remove_med_obj_n med' l b) (enum data) ;;
    loss <- lift (unwrap (reduce ladd (map snd rs))) ;;
    cret (med', map fst rs, loss).

  (** dynmsc.rs:86-134, [dyn_round] *)
  Definition dyn_round_n (minimum_k maxiter : nat) (st : dst Nt Lt) : cres (ctl (dst Nt Lt)) :=
    let k := length (y_med st) in
    if negb ((3 <=? k) && (minimum_k <=? k)) then cret (Break st) else
    rl <- lift (update_removal_loss3 (y_data st) (y_rl st)) ;;
    s <- cwhileM maxiter (msc_iteration_n M) (mkM (y_med st) (y_data st) rl (y_loss st) (mlen M) 0 0) ;;
    let r := min_removal (m_rl s) in
    let loss := to_silhouette M (m_loss s) in
    losses <- lift (upd (y_losses st) (k - minimum_k) loss) ;;
    let better := lltb (y_best st) loss in
    match snd r with
    | None => cpanic P_assert
    | Some b =>
        '(med', data', loss') <- remove_med_n (m_med s) (m_data s) b ;;
        cret (Next (mkD med' data' (remove_nth (m_rl s) b) loss' losses
                      (if better then loss else y_best st)
                      (if better then assignment3_of (m_data s) else y_assi st)
                      (if better then m_med s else y_meds st)
                      (y_iter st + m_iter s) (y_swaps st + m_swaps s)))
    end.

  (** dynmsc.rs:53-150, [dynmsc] *)
  Definition dynmsc_n (med : list nat) (mink maxiter : nat) : cres (dyn_result Lt) :=
    let k := length med in
    let minimum_k := Nat.min (Nat.max mink 1) k in
    if k =? 1 then
      r <- single_medoid_n M med ;;
      cret (mkDR r [r_loss r])
    else
    '(loss, data) <- initial_assignment3_n M med ;;
    st <- cwhileM k (dyn_round_n minimum_k maxiter)
                 (mkD med data (repeat lzero k) loss (repeat lzero (k - minimum_k + 1)) lzero
                      [0; mlen M] med 0 0) ;;
    st <- (if minimum_k <=? 2 then
             r <- fastermsc_k2_n M (y_med st) maxiter ;;
             losses <- lift (upd (y_losses st) (2 - minimum_k) (r_loss r)) ;;
             let better := lltb (y_best st) (r_loss r) in
             cret (mkD (r_med r) (y_data st) (y_rl st) (y_loss st) losses
                     (if better then r_loss r else y_best st)
                     (if better then r_assi r else y_assi st)
                     (if better then r_med r else y_meds st)
                     (y_iter st + r_iter r) (y_swaps st + r_swaps r))
           else cret st) ;;
    losses <- lift (if minimum_k <=? 1 then upd (y_losses st) 0 lzero else Ok (y_losses st)) ;;
    cret (mkDR (mkPR (y_best st) (y_assi st) (y_iter st) (y_swaps st) (y_meds st)) losses).

  (** ** M_ParFasterpam.v *)
  (** par_fasterpam.rs:97-130, [par_initial_assignment] *)
  Definition par_initial_assignment_n (t : rtree) (med : list nat) : cres (Lt * list (Rec Nt)) :=
    _ <- lift (check_input M (length med)) ;;
    firstcenter <- lift (idx med 0) ;;
    rs <- cmapM (ia_obj_n (Lt := Lt) M med firstcenter) (seq 0 (mlen M)) ;;
    loss <- lift (unwrap (treduce ladd t (map snd rs))) ;;
    cret (loss, map fst rs).

  (** par_fasterpam.rs:151-166, [par_task] *)
  Definition par_task_n (length : nat) (data : list (Rec Nt)) (j stepsize x : nat)
    : cres (list Lt * Lt) :=
    let start := x * stepsize in
    let end_ := Nat.min (start + stepsize) (mlen M) in
    cfoldM (fbs_step_n M j) (skipn start (firstn end_ (enum data))) (repeat lzero length, lzero).

  (** par_fasterpam.rs:134-176, [par_find_best_swap] *)
  Definition par_find_best_swap_n (s : sched) (removal_loss : list Lt) (data : list (Rec Nt))
      (j : nat) : cres (Lt * nat) :=
    let stepsize := (mlen M + s_parts s - 1) / s_parts s in
    '(ploss, acc) <-
      cfoldM (fun '(ploss, acc) x =>
               '(loss, lagg) <- par_task_n (length removal_loss) data j stepsize x ;;
               cret (map (fun '(a, b) => ladd a b) (combine ploss loss), ladd acc lagg))
            (s_order s) (removal_loss, lzero) ;;
    '(b, bloss) <- lift (find_min ploss) ;;
    cret (ladd bloss acc, b).

  (** par_fasterpam.rs:198-228, [par_do_swap_obj] *)
  Definition par_do_swap_obj_n (med : list nat) (b j : nat) (oreco : nat * Rec Nt)
    : cres (Rec Nt * Lt) :=
    let '(o, reco) := oreco in
    if o =? j then
      let se := if negb (ieqb (di (near reco)) b) then near reco else seco reco in
      cret (mkRec (DP (Some b) nzero) se, lzero)
    else
      doj <- cget M o j ;;
      reco' <-
        (if ieqb (di (near reco)) b then
           if nltb doj (dd (seco reco)) then
             cret (mkRec (DP (Some b) doj) (seco reco))
           else
             s <- update_second_nearest_n M med (as_usize (di (seco reco))) b o doj ;;
             cret (mkRec (seco reco) s)
         else
           if nltb doj (dd (near reco)) then
             cret (mkRec (DP (Some b) doj) (near reco))
           else if ieqb (di (seco reco)) b then
             s <- update_second_nearest_n M med (as_usize (di (near reco))) b o doj ;;
             cret (mkRec (near reco) s)
           else if nltb doj (dd (seco reco)) then
             cret (mkRec (near reco) (DP (Some b) doj))
           else cret reco) ;;
      cret (reco', lfrom (dd (near reco'))).

  (** par_fasterpam.rs:180-231, [par_do_swap] *)
  Definition par_do_swap_n (t : rtree) (med : list nat) (data : list (Rec Nt)) (b j : nat)
    : cres (list nat * list (Rec Nt) * Lt) :=
    _ <- lift (assertb (b <? length med) P_assert) ;;
    _ <- lift (assertb (j <? mlen M) P_assert) ;;
    med' <- lift (upd med b j) ;;
    rs <- cmapM (par_do_swap_obj_n med' b j) (enum data) ;;
    loss <- lift (unwrap (treduce ladd t (map snd rs))) ;;
    cret (med', map fst rs, loss).

  (** par_fasterpam.rs:70-86, [par_cand] *)
  Definition par_cand_n (orc : oracle) (st : fpst Nt Lt) (j : nat) : cres (ctl (fpst Nt Lt)) :=
    if j =? fp_last st then cret (Break st) else
    rj <- lift (idx (fp_data st) j) ;;
    mj <- lift (idx (fp_med st) (as_usize (di (near rj)))) ;;
    if j =? mj then cret (Next st) else
    '(change, b) <- par_find_best_swap_n (o_find orc (fp_iter st) j) (fp_rl st) (fp_data st) j ;;
    if lleb lzero change then cret (Next st) else
    '(med', data', loss') <- par_do_swap_n (o_swap orc (fp_iter st) j) (fp_med st) (fp_data st) b j ;;
    rl' <- lift (update_removal_loss data' (fp_rl st)) ;;
    cret (Next (mkFp med' data' rl' loss' j (S (fp_swaps st)) (fp_iter st))).

  (** par_fasterpam.rs:67-90, [par_iteration] *)
  Definition par_iteration_n (orc : oracle) (order : list nat) (st : fpst Nt Lt)
    : cres (ctl (fpst Nt Lt)) :=
    let swaps_before := fp_swaps st in
    let lastloss := fp_loss st in
    st' <- cforM (par_cand_n orc) order
                (mkFp (fp_med st) (fp_data st) (fp_rl st) (fp_loss st) (fp_last st)
                      (fp_swaps st) (S (fp_iter st))) ;;
    if (fp_swaps st' =? swaps_before) || lleb lastloss (fp_loss st')
    then cret (Break st') else cret (Next st').

  (** par_fasterpam.rs:43-93, [par_fasterpam] *)
  Definition par_fasterpam_n (orc : oracle) (order : list nat) (med : list nat) (maxiter : nat)
    : cres (pam_result Lt) :=
    if length med =? 1 then single_medoid_n M med else
    '(loss, data) <- par_initial_assignment_n (o_init orc) med ;;
    rl <- lift (update_removal_loss data (repeat lzero (length med))) ;;
    st <- cwhileM maxiter (par_iteration_n orc order) (mkFp med data rl loss (mlen M) 0 0) ;;
    cret (mkPR (fp_loss st) (assignment_of (fp_data st)) (fp_iter st) (fp_swaps st) (fp_med st)).
End Cost2.
