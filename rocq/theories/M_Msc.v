(** M_Msc.v -- model of src/fastermsc.rs and src/fastmsc.rs *)
From Verif Require Import Base Num M_Mat M_Util M_Fasterpam M_Silhouette.
Set Implicit Arguments.

Section Msc.
  Context {Nt Lt : Type} `{NumN Nt} `{NumL Lt} `{FromN Nt Lt}.
  Variable M : Mat Nt.

  (** fastermsc.rs:8-14 (= pammedsil.rs:9-15, dynmsc.rs:10-16) *)
  Definition ratio (a b : Nt) : Lt :=
    if nis_zero a || nis_zero b then lzero else ldiv (lfrom a) (lfrom b).

  (** fastermsc.rs:123-133, one medoid [(m, me)] considered for object [i] *)
  Definition ia3_step (i : nat) (cur : Reco Nt) (mme : nat * nat) : res (Reco Nt) :=
    let '(m, me) := mme in
    d <- mget M i me ;;
    Ok (if nltb d (dd (near3 cur)) || (i =? me) then
          mkReco (DP (Some m) d) (near3 cur) (seco3 cur)
        else if is_marker (di (seco3 cur)) || nltb d (dd (seco3 cur)) then
          mkReco (near3 cur) (DP (Some m) d) (seco3 cur)
        else if is_marker (di (third3 cur)) || nltb d (dd (third3 cur)) then
          mkReco (near3 cur) (seco3 cur) (DP (Some m) d)
        else cur).

  (** fastermsc.rs:120-136, the closure for object [i] *)
  Definition ia3_obj (med : list nat) (firstcenter : nat) (i : nat) : res (Reco Nt * Lt) :=
    d0 <- mget M i firstcenter ;;
    cur <- foldM (ia3_step i) (skipn 1 (enum med))
                 (mkReco (DP (Some 0) d0) (DP None nzero) (DP None nzero)) ;;
    Ok (cur, ratio (dd (near3 cur)) (dd (seco3 cur))).

  (** fastermsc.rs:104-140 *)
  Definition initial_assignment3 (med : list nat) : res (Lt * list (Reco Nt)) :=
    _ <- check_input M (length med) ;;
    firstcenter <- idx med 0 ;;
    rs <- mapM (ia3_obj med firstcenter) (seq 0 (mlen M)) ;;
    loss <- unwrap (reduce ladd (map snd rs)) ;;
    Ok (loss, map fst rs).

  (** fastermsc.rs:158-177, loop body for object [o] *)
  Definition fbs3_step (j : nat) (st : list Lt * Lt) (oreco : nat * Reco Nt) : res (list Lt * Lt) :=
    let '(ploss, acc) := st in
    let '(o, reco) := oreco in
    doj <- mget M o j ;;
    let dn := dd (near3 reco) in let ds := dd (seco3 reco) in let dt := dd (third3 reco) in
    let ni := as_usize (di (near3 reco)) in let si := as_usize (di (seco3 reco)) in
    if nltb doj dn then
      let acc := ladd acc (lsub (ratio dn ds) (ratio doj dn)) in
      ploss <- add_at ploss ni (lsub (ladd (ratio doj dn) (ratio ds dt)) (ratio (nadd dn doj) ds)) ;;
      ploss <- add_at ploss si (lsub (ratio dn dt) (ratio dn ds)) ;;
      Ok (ploss, acc)
    else if nltb doj ds then
      let acc := ladd acc (lsub (ratio dn ds) (ratio dn doj)) in
      ploss <- add_at ploss ni (lsub (ladd (ratio dn doj) (ratio ds dt)) (ratio (nadd dn doj) ds)) ;;
      ploss <- add_at ploss si (lsub (ratio dn dt) (ratio dn ds)) ;;
      Ok (ploss, acc)
    else if nltb doj dt then
      ploss <- add_at ploss ni (lsub (ratio ds dt) (ratio ds doj)) ;;
      ploss <- add_at ploss si (lsub (ratio dn dt) (ratio dn doj)) ;;
      Ok (ploss, acc)
    else Ok (ploss, acc).

  (** fastermsc.rs:144-180 *)
  Definition find_best_swap3 (removal_loss : list Lt) (data : list (Reco Nt)) (j : nat)
    : res (Lt * nat) :=
    '(ploss, acc) <- foldM (fbs3_step j) (enum data) (removal_loss, lzero) ;;
    '(b, bloss) <- find_max ploss ;;
    Ok (ladd bloss acc, b).

  (** fastermsc.rs:183-194 *)
  Definition update_removal_loss3 (data : list (Reco Nt)) (loss : list Lt) : res (list Lt) :=
    foldM (fun loss rec =>
             let dn := dd (near3 rec) in let ds := dd (seco3 rec) in let dt := dd (third3 rec) in
             loss <- add_at loss (as_usize (di (near3 rec))) (lsub (ratio dn ds) (ratio ds dt)) ;;
             add_at loss (as_usize (di (seco3 rec))) (lsub (ratio dn ds) (ratio dn dt)))
          data (repeat lzero (length loss)).

  (** fastermsc.rs:199-223 *)
  Definition update_third_nearest (med : list nat) (n s b o : nat) (doj : Nt) : res (dpair Nt) :=
    foldM (fun dist '(i, mi) =>
             if (i =? n) || (i =? b) || (i =? s) then Ok dist
             else d <- mget M o mi ;;
                  Ok (if nltb d (dd dist) then DP (Some i) d else dist))
          (enum med) (DP (Some b) doj).

  (** fastermsc.rs:245-296, the closure for object [o]; [med] already has [med[b] = j] *)
  Definition do_swap3_obj (med : list nat) (b j : nat) (oreco : nat * Reco Nt)
    : res (Reco Nt * Lt) :=
    let '(o, reco) := oreco in
    let ne := near3 reco in let se := seco3 reco in let th := third3 reco in
    if o =? j then
      let reco' :=
        if negb (ieqb (di ne) b) then
          mkReco (DP (Some b) nzero) ne (if negb (ieqb (di se) b) then se else th)
        else mkReco (DP (Some b) nzero) se th in
      Ok (reco', lzero)
    else
      doj <- mget M o j ;;
      let new := DP (Some b) doj in
      reco' <-
        (if ieqb (di ne) b then
           if nltb doj (dd se) then Ok (mkReco new se th)
           else if is_marker (di th) || nltb doj (dd th) then Ok (mkReco se new th)
           else t <- update_third_nearest med (as_usize (di se)) (as_usize (di th)) b o doj ;;
                Ok (mkReco se th t)
         else if ieqb (di se) b then
           if nltb doj (dd ne) then Ok (mkReco new ne th)
           else if is_marker (di th) || nltb doj (dd th) then Ok (mkReco ne new th)
           else t <- update_third_nearest med (as_usize (di ne)) (as_usize (di th)) b o doj ;;
                Ok (mkReco ne th t)
         else
           if nltb doj (dd ne) then Ok (mkReco new ne se)
           else if nltb doj (dd se) then Ok (mkReco ne new se)
           else if is_marker (di th) || nltb doj (dd th) then Ok (mkReco ne se new)
           else if ieqb (di th) b then
             t <- update_third_nearest med (as_usize (di ne)) (as_usize (di se)) b o doj ;;
             Ok (mkReco ne se t)
           else Ok reco) ;;
      Ok (reco', ratio (dd (near3 reco')) (dd (seco3 reco'))).

  (** fastermsc.rs:227-299 *)
  Definition do_swap3 (med : list nat) (data : list (Reco Nt)) (b j : nat)
    : res (list nat * list (Reco Nt) * Lt) :=
    _ <- assertb (b <? length med) P_assert ;;
    _ <- assertb (j <? mlen M) P_assert ;;
    med' <- upd med b j ;;
    rs <- mapM (do_swap3_obj med' b j) (enum data) ;;
    loss <- unwrap (reduce ladd (map snd rs)) ;;
    Ok (med', map fst rs, loss).

  (** [data.iter().map(|x| x.near.i as usize).collect()], fastermsc.rs:97 *)
  Definition assignment3_of (data : list (Reco Nt)) : list nat :=
    map (fun x => as_usize (di (near3 x))) data.

  (** [L::one() - loss / L::from(n as u32)], fastermsc.rs:98 *)
  Definition to_silhouette (loss : Lt) : Lt :=
    lsub lone (ldiv loss (lfrom_u32 (as_u32 (mlen M)))).

  (** Mutable variables of the main loop of fastermsc (and of one round of dynmsc) *)
  Record mst := mkM {
    m_med : list nat;
    m_data : list (Reco Nt);
    m_rl : list Lt;
    m_loss : Lt;
    m_last : nat;
    m_swaps : nat;
    m_iter : nat
  }.

  (** fastermsc.rs:76-92 (= dynmsc.rs:94-110) *)
  Definition msc_cand (st : mst) (j : nat) : res (ctl mst) :=
    if j =? m_last st then Ok (Break st) else
    rj <- idx (m_data st) j ;;
    mj <- idx (m_med st) (as_usize (di (near3 rj))) ;;
    if j =? mj then Ok (Next st) else
    '(change, b) <- find_best_swap3 (m_rl st) (m_data st) j ;;
    if lleb change lzero then Ok (Next st) else
    '(med', data', loss') <- do_swap3 (m_med st) (m_data st) b j ;;
    rl' <- update_removal_loss3 data' (m_rl st) ;;
    Ok (Next (mkM med' data' rl' loss' j (S (m_swaps st)) (m_iter st))).

  (** fastermsc.rs:73-96 (= dynmsc.rs:91-114), one iteration *)
  Definition msc_iteration (st : mst) : res (ctl mst) :=
    let swaps_before := m_swaps st in
    let lastloss := m_loss st in
    st' <- forM msc_cand (seq 0 (mlen M))
                (mkM (m_med st) (m_data st) (m_rl st) (m_loss st) (m_last st)
                     (m_swaps st) (S (m_iter st))) ;;
    if (m_swaps st' =? swaps_before) || lleb lastloss (m_loss st')
    then Ok (Break st') else Ok (Next st').

  (** fastermsc.rs:359-368, the closure for object [i] *)
  Definition ia2_obj (m0 m1 i : nat) : res (nat * (Nt * Nt) * Lt) :=
    d0 <- mget M i m0 ;;
    d1 <- mget M i m1 ;;
    Ok (if nltb d0 d1 then (0, (d0, d1), ratio d0 d1) else (1, (d0, d1), ratio d1 d0)).

  (** fastermsc.rs:345-372; returns (loss, assi, data).  [med[0]] and [med[1]] exist as k = 2. *)
  Definition initial_assignment_k2 (med : list nat) : res (Lt * list nat * list (Nt * Nt)) :=
    sq <- msquare M ;;
    _ <- assertb sq P_not_square ;;
    _ <- assertb (N.of_nat (mlen M) <=? u32_max)%N P_n_too_large ;;
    _ <- assertb (length med =? 2) P_invalid_k ;;
    m0 <- idx med 0 ;;
    m1 <- idx med 1 ;;
    rs <- mapM (ia2_obj m0 m1) (seq 0 (mlen M)) ;;
    loss <- unwrap (reduce ladd (map snd rs)) ;;
    Ok (loss, map (fun r => fst (fst r)) rs, map (fun r => snd (fst r)) rs).

  (** fastermsc.rs:387-392; the two entries of [ploss] *)
  Definition fbs2_step (j : nat) (pl : Lt * Lt) (od : nat * (Nt * Nt)) : res (Lt * Lt) :=
    let '(o, (d0, d1)) := od in
    doj <- mget M o j ;;
    Ok (ladd (fst pl) (if nltb doj d1 then ratio doj d1 else ratio d1 doj),
        ladd (snd pl) (if nltb doj d0 then ratio doj d0 else ratio d0 doj)).

  (** fastermsc.rs:376-395 *)
  Definition find_best_swap_k2 (data : list (Nt * Nt)) (j : nat) : res (Lt * nat) :=
    pl <- foldM (fbs2_step j) (enum data) (lzero, lzero) ;;
    '(b, bloss) <- find_min [fst pl; snd pl] ;;
    Ok (bloss, b).

  (** fastermsc.rs:420-435 and 441-456, the closure for object [o], for [b = 0] and for any
      other [b] *)
  Definition do_swap2_obj (b j : nat) (oad : nat * (nat * (Nt * Nt)))
    : res (nat * (Nt * Nt) * Lt) :=
    let '(o, (a, (d0, d1))) := oad in
    if b =? 0 then
      if o =? j then Ok (0, (nzero, d1), lzero) else
      doj <- mget M o j ;;
      Ok (if nltb doj d1 || (neqb doj d1 && (a =? 0))
          then (0, (doj, d1), ratio doj d1) else (1, (doj, d1), ratio d1 doj))
    else
      if o =? j then Ok (1, (d0, nzero), lzero) else
      doj <- mget M o j ;;
      Ok (if nltb doj d0 || (neqb doj d0 && (a =? 1))
          then (1, (d0, doj), ratio doj d0) else (0, (d0, doj), ratio d0 doj)).

  (** fastermsc.rs:399-460; returns (med, assi, data, loss) *)
  Definition do_swap_k2 (med assi : list nat) (data : list (Nt * Nt)) (b j : nat)
    : res (list nat * list nat * list (Nt * Nt) * Lt) :=
    _ <- assertb (b <? length med) P_assert ;;
    _ <- assertb (j <? mlen M) P_assert ;;
    med' <- upd med b j ;;
    rs <- mapM (do_swap2_obj b j) (enum (combine assi data)) ;;
    loss <- unwrap (reduce ladd (map snd rs)) ;;
    Ok (med', map (fun r => fst (fst r)) rs, map (fun r => snd (fst r)) rs, loss).

  (** Mutable variables of the main loops for k = 2 *)
  Record kst := mkK {
    k_med : list nat;
    k_assi : list nat;
    k_data : list (Nt * Nt);
    k_loss : Lt;
    k_last : nat;        (* not used by fastmsc_k2 *)
    k_swaps : nat;
    k_iter : nat
  }.

  (** fastermsc.rs:319-334 *)
  Definition k2_cand (st : kst) (j : nat) : res (ctl kst) :=
    if j =? k_last st then Ok (Break st) else
    aj <- idx (k_assi st) j ;;
    mj <- idx (k_med st) aj ;;
    if j =? mj then Ok (Next st) else
    '(newloss, b) <- find_best_swap_k2 (k_data st) j ;;
    if lleb (k_loss st) newloss then Ok (Next st) else
    '(med', assi', data', loss') <- do_swap_k2 (k_med st) (k_assi st) (k_data st) b j ;;
    Ok (Next (mkK med' assi' data' loss' j (S (k_swaps st)) (k_iter st))).

  (** fastermsc.rs:316-338, one iteration *)
  Definition k2_iteration (st : kst) : res (ctl kst) :=
    let swaps_before := k_swaps st in
    let lastloss := k_loss st in
    st' <- forM k2_cand (seq 0 (mlen M))
                (mkK (k_med st) (k_assi st) (k_data st) (k_loss st) (k_last st)
                     (k_swaps st) (S (k_iter st))) ;;
    if (k_swaps st' =? swaps_before) || lleb lastloss (k_loss st')
    then Ok (Break st') else Ok (Next st').

  (** fastermsc.rs:302-341 *)
  Definition fastermsc_k2 (med : list nat) (maxiter : nat) : res (pam_result Lt) :=
    _ <- assertb (length med =? 2) P_assert ;;
    '(loss, assi, data) <- initial_assignment_k2 med ;;
    st <- whileM maxiter k2_iteration (mkK med assi data loss (mlen M) 0 0) ;;
    Ok (mkPR (to_silhouette (k_loss st)) (k_assi st) (k_iter st) (k_swaps st) (k_med st)).

  (** fastermsc.rs:48-100 *)
  Definition fastermsc (med : list nat) (maxiter : nat) : res (pam_result Lt) :=
    if length med =? 1 then single_medoid M med else
    if length med =? 2 then fastermsc_k2 med maxiter else
    '(loss, data) <- initial_assignment3 med ;;
    rl <- update_removal_loss3 data (repeat lzero (length med)) ;;
    st <- whileM maxiter msc_iteration (mkM med data rl loss (mlen M) 0 0) ;;
    Ok (mkPR (to_silhouette (m_loss st)) (assignment3_of (m_data st)) (m_iter st) (m_swaps st)
             (m_med st)).

  (** fastmsc.rs:71-80; [best] as in fastpam1 *)
  Definition fastmsc_cand (med : list nat) (data : list (Reco Nt)) (rl : list Lt)
      (best : Lt * option (nat * nat)) (j : nat) : res (Lt * option (nat * nat)) :=
    rj <- idx data j ;;
    mj <- idx med (as_usize (di (near3 rj))) ;;
    if j =? mj then Ok best else
    '(change, b) <- find_best_swap3 rl data j ;;
    if lleb change (fst best) then Ok best else Ok (change, Some (b, j)).

  (** fastmsc.rs:81-91 (= pammedsil.rs:147-157) *)
  Definition swap_best3 (st : mst) (rl : list Lt) (best : Lt * option (nat * nat)) : res (ctl mst) :=
    if lltb lzero (fst best) then
      match snd best with
      | None => Panic P_assert
      | Some (b, j) =>
          '(med', data', newloss) <- do_swap3 (m_med st) (m_data st) b j ;;
          if lleb (m_loss st) newloss then
            Ok (Break (mkM med' data' rl (m_loss st) (m_last st) (S (m_swaps st)) (m_iter st)))
          else
            Ok (Next (mkM med' data' rl newloss (m_last st) (S (m_swaps st)) (m_iter st)))
      end
    else Ok (Break (mkM (m_med st) (m_data st) rl (m_loss st) (m_last st) (m_swaps st) (m_iter st))).

  (** fastmsc.rs:67-92, one iteration *)
  Definition fastmsc_iteration (st0 : mst) : res (ctl mst) :=
    let st := mkM (m_med st0) (m_data st0) (m_rl st0) (m_loss st0) (m_last st0) (m_swaps st0)
                  (S (m_iter st0)) in
    rl <- update_removal_loss3 (m_data st) (m_rl st) ;;
    best <- foldM (fastmsc_cand (m_med st) (m_data st) rl) (seq 0 (mlen M)) (lzero, None) ;;
    swap_best3 st rl best.

  (** fastmsc.rs:116-124 *)
  Definition fastmsc_k2_cand (st : kst) (best : Lt * option (nat * nat)) (j : nat)
    : res (Lt * option (nat * nat)) :=
    aj <- idx (k_assi st) j ;;
    mj <- idx (k_med st) aj ;;
    if j =? mj then Ok best else
    '(newloss, b) <- find_best_swap_k2 (k_data st) j ;;
    Ok (match snd best with
        | None => (newloss, Some (b, j))
        | Some _ => if lltb newloss (fst best) then (newloss, Some (b, j)) else best
        end).

  (** fastmsc.rs:113-137, one iteration.  [do_swap_k2] with the initial [best.1 = k] fails its
      assertion. *)
  Definition fastmsc_k2_iteration (st0 : kst) : res (ctl kst) :=
    let st := mkK (k_med st0) (k_assi st0) (k_data st0) (k_loss st0) (k_last st0) (k_swaps st0)
                  (S (k_iter st0)) in
    best <- foldM (fastmsc_k2_cand st) (seq 0 (mlen M)) (lzero, None) ;;
    if negb (lltb (fst best) (k_loss st)) then Ok (Break st) else
    match snd best with
    | None => Panic P_assert
    | Some (b, j) =>
        '(med', assi', data', newloss) <- do_swap_k2 (k_med st) (k_assi st) (k_data st) b j ;;
        if negb (lltb newloss (k_loss st)) then
          Ok (Break (mkK med' assi' data' (k_loss st) (k_last st) (S (k_swaps st)) (k_iter st)))
        else
          Ok (Next (mkK med' assi' data' newloss (k_last st) (S (k_swaps st)) (k_iter st)))
    end.

  (** fastmsc.rs:99-140 *)
  Definition fastmsc_k2 (med : list nat) (maxiter : nat) : res (pam_result Lt) :=
    _ <- assertb (length med =? 2) P_assert ;;
    '(loss, assi, data) <- initial_assignment_k2 med ;;
    st <- whileM maxiter fastmsc_k2_iteration (mkK med assi data loss 0 0 0) ;;
    Ok (mkPR (to_silhouette (k_loss st)) (k_assi st) (k_iter st) (k_swaps st) (k_med st)).

  (** fastmsc.rs:43-96 *)
  Definition fastmsc (med : list nat) (maxiter : nat) : res (pam_result Lt) :=
    if length med =? 1 then single_medoid M med else
    if length med =? 2 then fastmsc_k2 med maxiter else
    '(loss, data) <- initial_assignment3 med ;;
    st <- whileM maxiter fastmsc_iteration (mkM med data (repeat lzero (length med)) loss 0 0 0) ;;
    Ok (mkPR (to_silhouette (m_loss st)) (assignment3_of (m_data st)) (m_iter st) (m_swaps st)
             (m_med st)).
End Msc.
Arguments mst : clear implicits.
Arguments kst : clear implicits.
