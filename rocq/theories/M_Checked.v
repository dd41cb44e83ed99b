(** M_Checked.v -- the functions of the PAM family with arithmetic which may panic.

    In builds with overflow checks (debug builds, or [overflow-checks = true]) every [+], [-] and unary [-] of an
    integer type panics when the result is out of range.  The functions below are those of M_Util.v, M_Fasterpam.v,
    M_Pam.v, M_Alternating.v and M_ParFasterpam.v with each such operation on losses replaced by one which may
    panic; the citations there apply.  Functions without arithmetic on losses are shared.  Simplification: the
    additions of a [reduce] are made after all closures, whereas iterators interleave them; this only affects which of
    several panics comes first. *)
From Verif Require Import Base Num M_Mat M_Util M_Fasterpam M_Pam M_Alternating M_ParFasterpam.
Set Implicit Arguments.

(** the operations on losses which may panic *)
Record arith (Lt : Type) := mkArith {
  cadd : Lt -> Lt -> res Lt;    (* a + b *)
  csub : Lt -> Lt -> res Lt;    (* a - b *)
  cneg : Lt -> res Lt           (* -a *)
}.

Section Checked.
  Context {Nt Lt : Type} `{HN : NumN Nt} `{HL : NumL Lt} `{HF : FromN Nt Lt}.
  Variable A : arith Lt.
  Variable M : Mat Nt.

  (** [v[i] += x], as [add_at] of M_Util.v *)
  Definition add_at_c (v : list Lt) (i : nat) (x : Lt) : res (list Lt) :=
    y <- idx v i ;; z <- cadd A y x ;; upd v i z.

  (** [Iterator::reduce] with [L::add] *)
  Definition reduce_c (l : list Lt) : res (option Lt) :=
    match l with
    | [] => Ok None
    | x :: xs => r <- foldM (cadd A) xs x ;; Ok (Some r)
    end.

  (** util.rs:123-128 and 131-136 *)
  Definition member_sum_c (assi : list nat) (m c : nat) : res Lt :=
    foldM (fun s '(i, a) =>
             if negb (c =? i) && (a =? m)
             then d <- mget M c i ;; cadd A s (lfrom d)
             else Ok s)
          (enum assi) lzero.

  (** util.rs:110-145 *)
  Definition choose_c (assi : list nat) (med : list nat) (m : nat) : res (list nat * bool * Lt) :=
    first <- idx med m ;;
    sumb <- member_sum_c assi m first ;;
    '(best, sumb) <-
      foldM (fun bs '(j, aj) =>
               if negb (j =? first) && (aj =? m) then
                 sumj <- member_sum_c assi m j ;;
                 (if lltb sumj (snd bs) then Ok (j, sumj) else Ok bs)
               else Ok bs)
            (enum assi) (first, sumb) ;;
    med' <- upd med m best ;;
    Ok (med', negb (best =? first), sumb).

  (** fasterpam.rs:175-208 *)
  Definition initial_assignment_c (med : list nat) : res (Lt * list (Rec Nt)) :=
    _ <- check_input M (length med) ;;
    firstcenter <- idx med 0 ;;
    rs <- mapM (ia_obj (Lt := Lt) M med firstcenter) (seq 0 (mlen M)) ;;
    o <- reduce_c (map snd rs) ;;
    loss <- unwrap o ;;
    Ok (loss, map fst rs).

  (** fasterpam.rs:226-237 *)
  Definition fbs_step_c (j : nat) (st : list Lt * Lt) (oreco : nat * Rec Nt) : res (list Lt * Lt) :=
    let '(ploss, acc) := st in
    let '(o, reco) := oreco in
    doj <- mget M o j ;;
    if nltb doj (dd (near reco)) then
      x <- csub A (lfrom doj) (lfrom (dd (near reco))) ;;
      acc <- cadd A acc x ;;
      y <- csub A (lfrom (dd (near reco))) (lfrom (dd (seco reco))) ;;
      ploss <- add_at_c ploss (as_usize (di (near reco))) y ;;
      Ok (ploss, acc)
    else if nltb doj (dd (seco reco)) then
      y <- csub A (lfrom doj) (lfrom (dd (seco reco))) ;;
      ploss <- add_at_c ploss (as_usize (di (near reco))) y ;;
      Ok (ploss, acc)
    else Ok (ploss, acc).

  (** fasterpam.rs:212-240 *)
  Definition find_best_swap_c (removal_loss : list Lt) (data : list (Rec Nt)) (j : nat) : res (Lt * nat) :=
    '(ploss, acc) <- foldM (fbs_step_c j) (enum data) (removal_loss, lzero) ;;
    '(b, bloss) <- find_min ploss ;;
    x <- cadd A bloss acc ;;
    Ok (x, b).

  (** fasterpam.rs:243-253 *)
  Definition update_removal_loss_c (data : list (Rec Nt)) (loss : list Lt) : res (list Lt) :=
    foldM (fun loss rec =>
             x <- csub A (lfrom (dd (seco rec))) (lfrom (dd (near rec))) ;;
             add_at_c loss (as_usize (di (near rec))) x)
          data (repeat lzero (length loss)).

  (** fasterpam.rs:285-336 *)
  Definition do_swap_c (med : list nat) (data : list (Rec Nt)) (b j : nat)
    : res (list nat * list (Rec Nt) * Lt) :=
    _ <- assertb (b <? length med) P_assert ;;
    _ <- assertb (j <? mlen M) P_assert ;;
    med' <- upd med b j ;;
    rs <- mapM (do_swap_obj (Lt := Lt) M med' b j) (enum data) ;;
    o <- reduce_c (map snd rs) ;;
    loss <- unwrap o ;;
    Ok (med', map fst rs, loss).

  (** fasterpam.rs:63-79 (= 148-164) *)
  Definition fp_cand_c (st : fpst Nt Lt) (j : nat) : res (ctl (fpst Nt Lt)) :=
    if j =? fp_last st then Ok (Break st) else
    rj <- idx (fp_data st) j ;;
    mj <- idx (fp_med st) (as_usize (di (near rj))) ;;
    if j =? mj then Ok (Next st) else
    '(change, b) <- find_best_swap_c (fp_rl st) (fp_data st) j ;;
    if lleb lzero change then Ok (Next st) else
    '(med', data', loss') <- do_swap_c (fp_med st) (fp_data st) b j ;;
    rl' <- update_removal_loss_c data' (fp_rl st) ;;
    Ok (Next (mkFp med' data' rl' loss' j (S (fp_swaps st)) (fp_iter st))).

  (** fasterpam.rs:60-83 (= 145-168) *)
  Definition fp_iteration_c (order : list nat) (st : fpst Nt Lt) : res (ctl (fpst Nt Lt)) :=
    let swaps_before := fp_swaps st in
    let lastloss := fp_loss st in
    st' <- forM fp_cand_c order
                (mkFp (fp_med st) (fp_data st) (fp_rl st) (fp_loss st) (fp_last st)
                      (fp_swaps st) (S (fp_iter st))) ;;
    if (fp_swaps st' =? swaps_before) || lleb lastloss (fp_loss st')
    then Ok (Break st') else Ok (Next st').

  (** fasterpam.rs:50-54 (= 133-137) *)
  Definition single_medoid_c (med : list nat) : res (pam_result Lt) :=
    let assi := repeat 0 (mlen M) in
    '(med', swapped, loss) <- choose_c assi med 0 ;;
    Ok (mkPR loss assi 1 (if swapped then 1 else 0) med').

  (** fasterpam.rs:39-86 and 121-171, the order of the candidates being a parameter *)
  Definition fasterpam_order_c (order : list nat) (med : list nat) (maxiter : nat) : res (pam_result Lt) :=
    if length med =? 1 then single_medoid_c med else
    '(loss, data) <- initial_assignment_c med ;;
    rl <- update_removal_loss_c data (repeat lzero (length med)) ;;
    st <- whileM maxiter (fp_iteration_c order) (mkFp med data rl loss (mlen M) 0 0) ;;
    Ok (mkPR (fp_loss st) (assignment_of (fp_data st)) (fp_iter st) (fp_swaps st) (fp_med st)).

  (** fasterpam.rs:39-86 *)
  Definition fasterpam_c (med : list nat) (maxiter : nat) : res (pam_result Lt) :=
    fasterpam_order_c (seq 0 (mlen M)) med maxiter.

  (** fastpam1.rs:66-75 *)
  Definition fastpam1_cand_c (med : list nat) (data : list (Rec Nt)) (rl : list Lt)
      (best : best_swap) (j : nat) : res best_swap :=
    rj <- idx data j ;;
    mj <- idx med (as_usize (di (near rj))) ;;
    if j =? mj then Ok best else
    '(change, b) <- find_best_swap_c rl data j ;;
    if lleb (fst best) change then Ok best else Ok (change, Some (b, j)).

  (** fastpam1.rs:76-86 = pam.rs:183-193 *)
  Definition swap_best_c (st : pst Nt Lt) (rl : list Lt) (best : best_swap) : res (ctl (pst Nt Lt)) :=
    if lltb (fst best) lzero then
      match snd best with
      | None => Panic P_assert
      | Some (b, j) =>
          '(med', data', newloss) <- do_swap_c (p_med st) (p_data st) b j ;;
          if lleb (p_loss st) newloss then
            Ok (Break (mkP med' data' rl (p_loss st) (S (p_swaps st)) (p_iter st)))
          else
            Ok (Next (mkP med' data' rl newloss (S (p_swaps st)) (p_iter st)))
      end
    else Ok (Break (mkP (p_med st) (p_data st) rl (p_loss st) (p_swaps st) (p_iter st))).

  (** fastpam1.rs:62-87 *)
  Definition fastpam1_iteration_c (st0 : pst Nt Lt) : res (ctl (pst Nt Lt)) :=
    let st := mkP (p_med st0) (p_data st0) (p_rl st0) (p_loss st0) (p_swaps st0) (S (p_iter st0)) in
    rl <- update_removal_loss_c (p_data st) (p_rl st) ;;
    best <- foldM (fastpam1_cand_c (p_med st) (p_data st) rl) (seq 0 (mlen M)) (lzero, None) ;;
    swap_best_c st rl best.

  (** fastpam1.rs:42-90 *)
  Definition fastpam1_c (med : list nat) (maxiter : nat) : res (pam_result Lt) :=
    if length med =? 1 then single_medoid_c med else
    '(loss, data) <- initial_assignment_c med ;;
    st <- whileM maxiter fastpam1_iteration_c (mkP med data (repeat lzero (length med)) loss 0 0) ;;
    Ok (mkPR (p_loss st) (assignment_of (p_data st)) (p_iter st) (p_swaps st) (p_med st)).

  (** pam.rs:211-229 *)
  Definition pam_change_step_c (j m : nat) (acc : Lt) (oreco : nat * Rec Nt) : res Lt :=
    let '(o, reco) := oreco in
    if o =? j then Ok acc else
    doj <- mget M o j ;;
    if as_usize (di (near reco)) =? m then
      if nltb doj (dd (seco reco)) then
        x <- csub A (lfrom doj) (lfrom (dd (near reco))) ;; cadd A acc x
      else
        x <- csub A (lfrom (dd (seco reco))) (lfrom (dd (near reco))) ;; cadd A acc x
    else if nltb doj (dd (near reco)) then
      x <- csub A (lfrom doj) (lfrom (dd (near reco))) ;; cadd A acc x
    else Ok acc.

  (** pam.rs:201-235 *)
  Definition find_best_swap_pam_c (med : list nat) (data : list (Rec Nt)) (j : nat) : res (Lt * option nat) :=
    recj <- idx data j ;;
    foldM (fun best m =>
             start <- cneg A (lfrom (dd (near recj))) ;;
             acc <- foldM (pam_change_step_c j m) (enum data) start ;;
             Ok (if lltb acc (fst best) then (acc, Some m) else best))
          (seq 0 (length med)) (lzero, None).

  (** pam.rs:173-182 *)
  Definition pam_cand_c (med : list nat) (data : list (Rec Nt)) (best : best_swap) (j : nat) : res best_swap :=
    rj <- idx data j ;;
    mj <- idx med (as_usize (di (near rj))) ;;
    if j =? mj then Ok best else
    '(change, b) <- find_best_swap_pam_c med data j ;;
    if lleb (fst best) change then Ok best
    else Ok (change, match b with Some b => Some (b, j) | None => None end).

  (** pam.rs:170-194 *)
  Definition pam_iteration_c (st0 : pst Nt Lt) : res (ctl (pst Nt Lt)) :=
    let st := mkP (p_med st0) (p_data st0) (p_rl st0) (p_loss st0) (p_swaps st0) (S (p_iter st0)) in
    best <- foldM (pam_cand_c (p_med st) (p_data st)) (seq 0 (mlen M)) (lzero, None) ;;
    swap_best_c st (p_rl st) best.

  (** pam.rs:150-197 *)
  Definition pam_optimize_c (med : list nat) (data : list (Rec Nt)) (maxiter : nat) (loss : Lt) : res (pam_result Lt) :=
    if length med =? 1 then single_medoid_c med else
    st <- whileM maxiter pam_iteration_c (mkP med data [] loss 0 0) ;;
    Ok (mkPR (p_loss st) (assignment_of (p_data st)) (p_iter st) (p_swaps st) (p_med st)).

  (** pam.rs:40-52 *)
  Definition pam_swap_c (med : list nat) (maxiter : nat) : res (pam_result Lt) :=
    '(loss, data) <- initial_assignment_c med ;;
    pam_optimize_c med data maxiter loss.

  (** pam.rs:254-259 *)
  Definition build_first_sum_c (i : nat) : res Lt :=
    foldM (fun s j => if negb (j =? i) then d <- mget M j i ;; cadd A s (lfrom d) else Ok s)
          (seq 0 (mlen M)) lzero.

  (** pam.rs:252-263 *)
  Definition build_first_c (k : nat) : res (Lt * nat) :=
    foldM (fun best i =>
             sum <- build_first_sum_c i ;;
             Ok (if (i =? 0) || lltb sum (fst best) then (sum, i) else best))
          (seq 0 (mlen M)) (lzero, k).

  (** pam.rs:273-281 *)
  Definition build_next_sum_c (dn : list Nt) (i : nat) : res Lt :=
    di0 <- idx dn i ;;
    start <- cneg A (lfrom di0) ;;
    foldM (fun s '(j, dj) =>
             if negb (j =? i) then
               d <- mget M j i ;;
               if nltb d dj then x <- csub A (lfrom d) (lfrom dj) ;; cadd A s x else Ok s
             else Ok s)
          (enum dn) start.

  (** pam.rs:271-285 *)
  Definition build_next_c (k : nat) (dn : list Nt) (cands : list nat) : res (Lt * nat) :=
    foldM (fun best i =>
             sum <- build_next_sum_c dn i ;;
             Ok (if (i =? 0) || lltb sum (fst best) then (sum, i) else best))
          cands (lzero, k).

  (** pam.rs:270-305 *)
  Definition build_step_c (k : nat) (st : bst Nt Lt) (l : nat) : res (ctl (bst Nt Lt)) :=
    best <- build_next_c k (map (fun r => dd (near r)) (b_data st))
                         (map fst (enum (b_data st))) ;;
    if lleb lzero (fst best) then Ok (Break st) else
    rs <- mapM (build_upd_obj (Lt := Lt) M l (snd best)) (enum (b_data st)) ;;
    loss <- foldM (fun s x => match snd x with Some v => cadd A s v | None => Ok s end) rs lzero ;;
    Ok (Next (mkB (b_meds st ++ [snd best]) (map fst rs) loss)).

  (** pam.rs:238-307 *)
  Definition pam_build_initialize_c (k : nat) : res (bst Nt Lt) :=
    sq <- msquare M ;;
    _ <- assertb sq P_not_square ;;
    best <- build_first_c k ;;
    data <- mapM (fun j => d <- mget M j (snd best) ;; Ok (mkRec (DP (Some 0) d) (DP None nzero)))
                 (seq 0 (mlen M)) ;;
    forM (build_step_c k) (seq 1 (k - 1)) (mkB [snd best] data (fst best)).

  (** pam.rs:82-98 *)
  Definition pam_build_c (k : nat) : res (Lt * list nat * list nat) :=
    _ <- check_input M k ;;
    st <- pam_build_initialize_c k ;;
    Ok (b_loss st, assignment_of (b_data st), b_meds st).

  (** pam.rs:131-147 *)
  Definition pam_c (k : nat) (maxiter : nat) : res (pam_result Lt) :=
    _ <- check_input M k ;;
    st <- pam_build_initialize_c k ;;
    pam_optimize_c (b_meds st) (b_data st) maxiter (b_loss st).

  (** alternating.rs:66-95 *)
  Definition assign_nearest_c (med : list nat) : res (Lt * list nat) :=
    _ <- check_input M (length med) ;;
    firstcenter <- idx med 0 ;;
    rs <- mapM (an_obj (Lt := Lt) M med firstcenter) (seq 0 (mlen M)) ;;
    o <- reduce_c (map snd rs) ;;
    Ok (match o with Some l => l | None => lzero end, map fst rs).

  (** alternating.rs:51-54 *)
  Definition alt_medoids_c (assi : list nat) (med : list nat) : res (list nat * bool) :=
    foldM (fun '(med, changed) i =>
             '(med', c, _) <- choose_c assi med i ;;
             Ok (med', changed || c))
          (seq 0 (length med)) (med, false).

  (** alternating.rs:49-59 *)
  Definition alt_iteration_c (st : ast Lt) : res (ctl (ast Lt)) :=
    '(med', changed) <- alt_medoids_c (al_assi st) (al_med st) ;;
    if negb changed then Ok (Break (mkA med' (al_assi st) (al_loss st) (S (al_iter st)))) else
    '(loss', assi') <- assign_nearest_c med' ;;
    Ok (Next (mkA med' assi' loss' (S (al_iter st)))).

  (** alternating.rs:40-61 *)
  Definition alternating_c (med : list nat) (maxiter : nat) : res (pam_result Lt) :=
    '(loss, assi) <- assign_nearest_c med ;;
    st <- whileM maxiter alt_iteration_c (mkA med assi loss 0) ;;
    Ok (mkPR (al_loss st) (al_assi st) (al_iter st) 0 (al_med st)).

  (** rayon's [reduce_with], as [treduce] of M_ParFasterpam.v *)
  Fixpoint treduce_c (t : rtree) (l : list Lt) : res (option Lt) :=
    match t with
    | RSeq => reduce_c l
    | RSplit p t1 t2 =>
        x <- treduce_c t1 (firstn p l) ;;
        y <- treduce_c t2 (skipn p l) ;;
        match x, y with
        | Some a, Some b => c <- cadd A a b ;; Ok (Some c)
        | Some a, None => Ok (Some a)
        | None, _ => Ok y
        end
    end.

  (** par_fasterpam.rs:97-130 *)
  Definition par_initial_assignment_c (t : rtree) (med : list nat) : res (Lt * list (Rec Nt)) :=
    _ <- check_input M (length med) ;;
    firstcenter <- idx med 0 ;;
    rs <- mapM (ia_obj (Lt := Lt) M med firstcenter) (seq 0 (mlen M)) ;;
    o <- treduce_c t (map snd rs) ;;
    loss <- unwrap o ;;
    Ok (loss, map fst rs).

  (** par_fasterpam.rs:151-166 *)
  Definition par_task_c (length : nat) (data : list (Rec Nt)) (j stepsize x : nat) : res (list Lt * Lt) :=
    let start := x * stepsize in
    let end_ := Nat.min (start + stepsize) (mlen M) in
    foldM (fbs_step_c j) (skipn start (firstn end_ (enum data))) (repeat lzero length, lzero).

  (** par_fasterpam.rs:134-176 *)
  Definition par_find_best_swap_c (s : sched) (removal_loss : list Lt) (data : list (Rec Nt)) (j : nat) : res (Lt * nat) :=
    let stepsize := (mlen M + s_parts s - 1) / s_parts s in
    '(ploss, acc) <-
      foldM (fun '(ploss, acc) x =>
               '(loss, lagg) <- par_task_c (length removal_loss) data j stepsize x ;;
               ploss' <- mapM (fun '(a, b) => cadd A a b) (combine ploss loss) ;;
               acc' <- cadd A acc lagg ;;
               Ok (ploss', acc'))
            (s_order s) (removal_loss, lzero) ;;
    '(b, bloss) <- find_min ploss ;;
    x <- cadd A bloss acc ;;
    Ok (x, b).

  (** par_fasterpam.rs:180-231 *)
  Definition par_do_swap_c (t : rtree) (med : list nat) (data : list (Rec Nt)) (b j : nat)
    : res (list nat * list (Rec Nt) * Lt) :=
    _ <- assertb (b <? length med) P_assert ;;
    _ <- assertb (j <? mlen M) P_assert ;;
    med' <- upd med b j ;;
    rs <- mapM (par_do_swap_obj (Lt := Lt) M med' b j) (enum data) ;;
    o <- treduce_c t (map snd rs) ;;
    loss <- unwrap o ;;
    Ok (med', map fst rs, loss).

  (** par_fasterpam.rs:70-86 *)
  Definition par_cand_c (orc : oracle) (st : fpst Nt Lt) (j : nat) : res (ctl (fpst Nt Lt)) :=
    if j =? fp_last st then Ok (Break st) else
    rj <- idx (fp_data st) j ;;
    mj <- idx (fp_med st) (as_usize (di (near rj))) ;;
    if j =? mj then Ok (Next st) else
    '(change, b) <- par_find_best_swap_c (o_find orc (fp_iter st) j) (fp_rl st) (fp_data st) j ;;
    if lleb lzero change then Ok (Next st) else
    '(med', data', loss') <- par_do_swap_c (o_swap orc (fp_iter st) j) (fp_med st) (fp_data st) b j ;;
    rl' <- update_removal_loss_c data' (fp_rl st) ;;
    Ok (Next (mkFp med' data' rl' loss' j (S (fp_swaps st)) (fp_iter st))).

  (** par_fasterpam.rs:67-90 *)
  Definition par_iteration_c (orc : oracle) (order : list nat) (st : fpst Nt Lt) : res (ctl (fpst Nt Lt)) :=
    let swaps_before := fp_swaps st in
    let lastloss := fp_loss st in
    st' <- forM (par_cand_c orc) order
                (mkFp (fp_med st) (fp_data st) (fp_rl st) (fp_loss st) (fp_last st)
                      (fp_swaps st) (S (fp_iter st))) ;;
    if (fp_swaps st' =? swaps_before) || lleb lastloss (fp_loss st')
    then Ok (Break st') else Ok (Next st').

  (** par_fasterpam.rs:43-93 *)
  Definition par_fasterpam_c (orc : oracle) (order : list nat) (med : list nat) (maxiter : nat) : res (pam_result Lt) :=
    if length med =? 1 then single_medoid_c med else
    '(loss, data) <- par_initial_assignment_c (o_init orc) med ;;
    rl <- update_removal_loss_c data (repeat lzero (length med)) ;;
    st <- whileM maxiter (par_iteration_c orc order) (mkFp med data rl loss (mlen M) 0 0) ;;
    Ok (mkPR (fp_loss st) (assignment_of (fp_data st)) (fp_iter st) (fp_swaps st) (fp_med st)).
End Checked.
