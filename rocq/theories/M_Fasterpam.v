(** M_Fasterpam.v -- model of src/fasterpam.rs *)
From Verif Require Import Base Num M_Mat M_Util.
Set Implicit Arguments.

Section Fasterpam.
  Context {Nt Lt : Type} `{NumN Nt} `{NumL Lt} `{FromN Nt Lt}.
  Variable M : Mat Nt.

  (** The checks at fasterpam.rs:182-185 (also alternating.rs:74-77, pam.rs:89-92 and 139-142,
      fastermsc.rs:111-114, pammedsil.rs:98-101, pamsil.rs:89-92, par_fasterpam.rs:105-108):
      [assert!(mat.is_square())], [assert!(n <= u32::MAX)], [assert!(k > 0 && k < u32::MAX)],
      [assert!(k <= n)]. *)
  Definition check_input (k : nat) : res unit :=
    sq <- msquare M ;;
    _ <- assertb sq P_not_square ;;
    _ <- assertb (N.of_nat (mlen M) <=? u32_max)%N P_n_too_large ;;
    _ <- assertb ((0 <? k) && (N.of_nat k <? u32_max)%N) P_invalid_k ;;
    assertb (k <=? mlen M) P_k_gt_n.

  (** fasterpam.rs:194-202, one medoid [(m, me)] considered for object [i] *)
  Definition ia_step (i : nat) (cur : Rec Nt) (mme : nat * nat) : res (Rec Nt) :=
    let '(m, me) := mme in
    d <- mget M i me ;;
    Ok (if nltb d (dd (near cur)) || (i =? me) then
          mkRec (DP (Some m) d) (near cur)
        else if is_marker (di (seco cur)) || nltb d (dd (seco cur)) then
          mkRec (near cur) (DP (Some m) d)
        else cur).

  (** fasterpam.rs:192-204, the closure for object [i] *)
  Definition ia_obj (med : list nat) (firstcenter : nat) (i : nat) : res (Rec Nt * Lt) :=
    d0 <- mget M i firstcenter ;;
    cur <- foldM (ia_step i) (skipn 1 (enum med))
                 (mkRec (DP (Some 0) d0) (DP None nzero)) ;;
    Ok (cur, lfrom (dd (near cur))).

  (** fasterpam.rs:175-208 *)
  Definition initial_assignment (med : list nat) : res (Lt * list (Rec Nt)) :=
    _ <- check_input (length med) ;;
    firstcenter <- idx med 0 ;;
    rs <- mapM (ia_obj med firstcenter) (seq 0 (mlen M)) ;;
    loss <- unwrap (reduce ladd (map snd rs)) ;;
    Ok (loss, map fst rs).

  (** fasterpam.rs:226-237, loop body for object [o] *)
  Definition fbs_step (j : nat) (st : list Lt * Lt) (oreco : nat * Rec Nt) : res (list Lt * Lt) :=
    let '(ploss, acc) := st in
    let '(o, reco) := oreco in
    doj <- mget M o j ;;
    if nltb doj (dd (near reco)) then
      let acc := ladd acc (lsub (lfrom doj) (lfrom (dd (near reco)))) in
      ploss <- add_at ploss (as_usize (di (near reco)))
                      (lsub (lfrom (dd (near reco))) (lfrom (dd (seco reco)))) ;;
      Ok (ploss, acc)
    else if nltb doj (dd (seco reco)) then
      ploss <- add_at ploss (as_usize (di (near reco)))
                      (lsub (lfrom doj) (lfrom (dd (seco reco)))) ;;
      Ok (ploss, acc)
    else Ok (ploss, acc).

  (** fasterpam.rs:212-240 *)
  Definition find_best_swap (removal_loss : list Lt) (data : list (Rec Nt)) (j : nat)
    : res (Lt * nat) :=
    '(ploss, acc) <- foldM (fbs_step j) (enum data) (removal_loss, lzero) ;;
    '(b, bloss) <- find_min ploss ;;
    Ok (ladd bloss acc, b).

  (** fasterpam.rs:243-253; the slice is first filled with zero *)
  Definition update_removal_loss (data : list (Rec Nt)) (loss : list Lt) : res (list Lt) :=
    foldM (fun loss rec =>
             add_at loss (as_usize (di (near rec)))
                    (lsub (lfrom (dd (seco rec))) (lfrom (dd (near rec)))))
          data (repeat lzero (length loss)).

  (** fasterpam.rs:258-281 *)
  Definition update_second_nearest (med : list nat) (n b o : nat) (doj : Nt) : res (dpair Nt) :=
    foldM (fun s '(i, mi) =>
             if (i =? n) || (i =? b) then Ok s
             else d <- mget M o mi ;;
                  Ok (if nltb d (dd s) then DP (Some i) d else s))
          (enum med) (DP (Some b) doj).

  (** fasterpam.rs:303-333, the closure for object [o]; [med] already has [med[b] = j] *)
  Definition do_swap_obj (med : list nat) (b j : nat) (oreco : nat * Rec Nt)
    : res (Rec Nt * Lt) :=
    let '(o, reco) := oreco in
    if o =? j then
      let se := if negb (ieqb (di (near reco)) b) then near reco else seco reco in
      Ok (mkRec (DP (Some b) nzero) se, lzero)
    else
      doj <- mget M o j ;;
      reco' <-
        (if ieqb (di (near reco)) b then
           if nltb doj (dd (seco reco)) then
             Ok (mkRec (DP (Some b) doj) (seco reco))
           else
             s <- update_second_nearest med (as_usize (di (seco reco))) b o doj ;;
             Ok (mkRec (seco reco) s)
         else
           if nltb doj (dd (near reco)) then
             Ok (mkRec (DP (Some b) doj) (near reco))
           else if nltb doj (dd (seco reco)) then
             Ok (mkRec (near reco) (DP (Some b) doj))
           else if ieqb (di (seco reco)) b then
             s <- update_second_nearest med (as_usize (di (near reco))) b o doj ;;
             Ok (mkRec (near reco) s)
           else Ok reco) ;;
      Ok (reco', lfrom (dd (near reco'))).

  (** fasterpam.rs:285-336; returns (med, data, loss) *)
  Definition do_swap (med : list nat) (data : list (Rec Nt)) (b j : nat)
    : res (list nat * list (Rec Nt) * Lt) :=
    _ <- assertb (b <? length med) P_assert ;;
    _ <- assertb (j <? mlen M) P_assert ;;
    med' <- upd med b j ;;
    rs <- mapM (do_swap_obj med' b j) (enum data) ;;
    loss <- unwrap (reduce ladd (map snd rs)) ;;
    Ok (med', map fst rs, loss).

  (** The mutable variables of the main loop (fasterpam.rs:55-59).  [lastswap = n] initially. *)
  Record fpst := mkFp {
    fp_med : list nat;
    fp_data : list (Rec Nt);
    fp_rl : list Lt;
    fp_loss : Lt;
    fp_last : nat;
    fp_swaps : nat;
    fp_iter : nat
  }.

  (** fasterpam.rs:63-79 (= 148-164), body of the loop over the candidates [j] *)
  Definition fp_cand (st : fpst) (j : nat) : res (ctl fpst) :=
    if j =? fp_last st then Ok (Break st) else
    rj <- idx (fp_data st) j ;;
    mj <- idx (fp_med st) (as_usize (di (near rj))) ;;
    if j =? mj then Ok (Next st) else
    '(change, b) <- find_best_swap (fp_rl st) (fp_data st) j ;;
    if lleb lzero change then Ok (Next st) else
    '(med', data', loss') <- do_swap (fp_med st) (fp_data st) b j ;;
    rl' <- update_removal_loss data' (fp_rl st) ;;
    Ok (Next (mkFp med' data' rl' loss' j (S (fp_swaps st)) (fp_iter st))).

  (** fasterpam.rs:60-83 (= 145-168), one iteration of the outer loop, [order] being the
      sequence of candidates *)
  Definition fp_iteration (order : list nat) (st : fpst) : res (ctl fpst) :=
    let swaps_before := fp_swaps st in
    let lastloss := fp_loss st in
    st' <- forM fp_cand order
                (mkFp (fp_med st) (fp_data st) (fp_rl st) (fp_loss st) (fp_last st)
                      (fp_swaps st) (S (fp_iter st))) ;;
    if (fp_swaps st' =? swaps_before) || lleb lastloss (fp_loss st')
    then Ok (Break st') else Ok (Next st').

  (** The result [(loss, assi, iter, n_swaps)] together with the new contents of [med]. *)
  Record pam_result := mkPR {
    r_loss : Lt;
    r_assi : list nat;
    r_iter : nat;
    r_swaps : nat;
    r_med : list nat
  }.

  (** fasterpam.rs:50-54 (= 133-137), the special case k = 1 *)
  Definition single_medoid (med : list nat) : res pam_result :=
    let assi := repeat 0 (mlen M) in
    '(med', swapped, loss) <- choose_medoid_within_partition M assi med 0 ;;
    Ok (mkPR loss assi 1 (if swapped then 1 else 0) med').

  (** fasterpam.rs:84 [data.iter().map(|x| x.near.i as usize).collect()] *)
  Definition assignment_of (data : list (Rec Nt)) : list nat :=
    map (fun x => as_usize (di (near x))) data.

  (** fasterpam.rs:49-86 with the candidate order as a parameter *)
  Definition fasterpam_order (order : list nat) (med : list nat) (maxiter : nat)
    : res pam_result :=
    if length med =? 1 then single_medoid med else
    '(loss, data) <- initial_assignment med ;;
    rl <- update_removal_loss data (repeat lzero (length med)) ;;
    st <- whileM maxiter (fp_iteration order) (mkFp med data rl loss (mlen M) 0 0) ;;
    Ok (mkPR (fp_loss st) (assignment_of (fp_data st)) (fp_iter st) (fp_swaps st) (fp_med st)).

  (** fasterpam.rs:39-86: candidates [0..n] *)
  Definition fasterpam (med : list nat) (maxiter : nat) : res pam_result :=
    fasterpam_order (seq 0 (mlen M)) med maxiter.

  (** fasterpam.rs:121-171: [seq] is what [rand::seq::index::sample(rng, n, n)] (line 144)
      returned, i.e. some permutation of [0..n]; the random number generator is not modelled.
      The body is the same as that of [fasterpam] except for the order. *)
  Definition rand_fasterpam (seq : list nat) (med : list nat) (maxiter : nat) : res pam_result :=
    fasterpam_order seq med maxiter.
End Fasterpam.
Arguments pam_result : clear implicits.
Arguments fpst : clear implicits.
