(** M_CheckedMsc.v -- fastermsc, fastmsc and dynmsc with an addition of dissimilarities which may panic.

    [find_best_swap] of fastermsc.rs adds two dissimilarities before it converts them to the loss type
    ([reco.near.d.clone() + doj.clone()], lines 163 and 167).  For integers this addition panics on overflow in builds
    with overflow checks.  It is the only arithmetic on dissimilarities in the crate, and the losses of these
    three functions are floating point numbers ([L: Float]), which do not overflow with a panic.  The functions below are
    those of M_Msc.v and M_Dynmsc.v which call it; the citations there apply.  Simplification: the panic comes before
    the update of [ploss], which only matters for which of two panics comes first. *)
From Verif Require Import Base Num M_Mat M_Util M_Fasterpam M_Silhouette M_Msc M_Pammedsil M_Dynmsc.
Set Implicit Arguments.

Section CheckedMsc.
  Context {Nt Lt : Type} `{NumN Nt} `{NumL Lt} `{FromN Nt Lt}.
  (** [a + b] for dissimilarities *)
  Variable plus : Nt -> Nt -> res Nt.
  Variable M : Mat Nt.

  (** fastermsc.rs:158-177 *)
  Definition fbs3_step_c (j : nat) (st : list Lt * Lt) (oreco : nat * Reco Nt) : res (list Lt * Lt) :=
    let '(ploss, acc) := st in
    let '(o, reco) := oreco in
    doj <- mget M o j ;;
    let dn := dd (near3 reco) in let ds := dd (seco3 reco) in let dt := dd (third3 reco) in
    let ni := as_usize (di (near3 reco)) in let si := as_usize (di (seco3 reco)) in
    if nltb doj dn then
      let acc := ladd acc (lsub (ratio dn ds) (ratio doj dn)) in
      s <- plus dn doj ;;
      ploss <- add_at ploss ni (lsub (ladd (ratio doj dn) (ratio ds dt)) (ratio s ds)) ;;
      ploss <- add_at ploss si (lsub (ratio dn dt) (ratio dn ds)) ;;
      Ok (ploss, acc)
    else if nltb doj ds then
      let acc := ladd acc (lsub (ratio dn ds) (ratio dn doj)) in
      s <- plus dn doj ;;
      ploss <- add_at ploss ni (lsub (ladd (ratio dn doj) (ratio ds dt)) (ratio s ds)) ;;
      ploss <- add_at ploss si (lsub (ratio dn dt) (ratio dn ds)) ;;
      Ok (ploss, acc)
    else if nltb doj dt then
      ploss <- add_at ploss ni (lsub (ratio ds dt) (ratio ds doj)) ;;
      ploss <- add_at ploss si (lsub (ratio dn dt) (ratio dn doj)) ;;
      Ok (ploss, acc)
    else Ok (ploss, acc).

  (** fastermsc.rs:144-180 *)
  Definition find_best_swap3_c (removal_loss : list Lt) (data : list (Reco Nt)) (j : nat) : res (Lt * nat) :=
    '(ploss, acc) <- foldM (fbs3_step_c j) (enum data) (removal_loss, lzero) ;;
    '(b, bloss) <- find_max ploss ;;
    Ok (ladd bloss acc, b).

  (** fastermsc.rs:76-92 (= dynmsc.rs:94-110) *)
  Definition msc_cand_c (st : mst Nt Lt) (j : nat) : res (ctl (mst Nt Lt)) :=
    if j =? m_last st then Ok (Break st) else
    rj <- idx (m_data st) j ;;
    mj <- idx (m_med st) (as_usize (di (near3 rj))) ;;
    if j =? mj then Ok (Next st) else
    '(change, b) <- find_best_swap3_c (m_rl st) (m_data st) j ;;
    if lleb change lzero then Ok (Next st) else
    '(med', data', loss') <- do_swap3 M (m_med st) (m_data st) b j ;;
    rl' <- update_removal_loss3 data' (m_rl st) ;;
    Ok (Next (mkM med' data' rl' loss' j (S (m_swaps st)) (m_iter st))).

  (** fastermsc.rs:73-96 (= dynmsc.rs:91-114) *)
  Definition msc_iteration_c (st : mst Nt Lt) : res (ctl (mst Nt Lt)) :=
    let swaps_before := m_swaps st in
    let lastloss := m_loss st in
    st' <- forM msc_cand_c (seq 0 (mlen M))
                (mkM (m_med st) (m_data st) (m_rl st) (m_loss st) (m_last st)
                     (m_swaps st) (S (m_iter st))) ;;
    if (m_swaps st' =? swaps_before) || lleb lastloss (m_loss st')
    then Ok (Break st') else Ok (Next st').

  (** fastermsc.rs:48-100; two medoids need no addition *)
  Definition fastermsc_c (med : list nat) (maxiter : nat) : res (pam_result Lt) :=
    if length med =? 1 then single_medoid M med else
    if length med =? 2 then fastermsc_k2 M med maxiter else
    '(loss, data) <- initial_assignment3 M med ;;
    rl <- update_removal_loss3 data (repeat lzero (length med)) ;;
    st <- whileM maxiter msc_iteration_c (mkM med data rl loss (mlen M) 0 0) ;;
    Ok (mkPR (to_silhouette M (m_loss st)) (assignment3_of (m_data st)) (m_iter st) (m_swaps st)
             (m_med st)).

  (** fastmsc.rs:71-80 *)
  Definition fastmsc_cand_c (med : list nat) (data : list (Reco Nt)) (rl : list Lt)
      (best : Lt * option (nat * nat)) (j : nat) : res (Lt * option (nat * nat)) :=
    rj <- idx data j ;;
    mj <- idx med (as_usize (di (near3 rj))) ;;
    if j =? mj then Ok best else
    '(change, b) <- find_best_swap3_c rl data j ;;
    if lleb change (fst best) then Ok best else Ok (change, Some (b, j)).

  (** fastmsc.rs:67-92 *)
  Definition fastmsc_iteration_c (st0 : mst Nt Lt) : res (ctl (mst Nt Lt)) :=
    let st := mkM (m_med st0) (m_data st0) (m_rl st0) (m_loss st0) (m_last st0) (m_swaps st0)
                  (S (m_iter st0)) in
    rl <- update_removal_loss3 (m_data st) (m_rl st) ;;
    best <- foldM (fastmsc_cand_c (m_med st) (m_data st) rl) (seq 0 (mlen M)) (lzero, None) ;;
    swap_best3 M st rl best.

  (** fastmsc.rs:43-96 *)
  Definition fastmsc_c (med : list nat) (maxiter : nat) : res (pam_result Lt) :=
    if length med =? 1 then single_medoid M med else
    if length med =? 2 then fastmsc_k2 M med maxiter else
    '(loss, data) <- initial_assignment3 M med ;;
    st <- whileM maxiter fastmsc_iteration_c (mkM med data (repeat lzero (length med)) loss 0 0 0) ;;
    Ok (mkPR (to_silhouette M (m_loss st)) (assignment3_of (m_data st)) (m_iter st) (m_swaps st)
             (m_med st)).

  (** dynmsc.rs:86-134, one round *)
  Definition dyn_round_c (minimum_k maxiter : nat) (st : dst Nt Lt) : res (ctl (dst Nt Lt)) :=
    let k := length (y_med st) in
    if negb ((3 <=? k) && (minimum_k <=? k)) then Ok (Break st) else
    rl <- update_removal_loss3 (y_data st) (y_rl st) ;;
    s <- whileM maxiter msc_iteration_c (mkM (y_med st) (y_data st) rl (y_loss st) (mlen M) 0 0) ;;
    let r := min_removal (m_rl s) in
    let loss := to_silhouette M (m_loss s) in
    losses <- upd (y_losses st) (k - minimum_k) loss ;;
    let better := lltb (y_best st) loss in
    match snd r with
    | None => Panic P_assert
    | Some b =>
        '(med', data', loss') <- remove_med M (m_med s) (m_data s) b ;;
        Ok (Next (mkD med' data' (remove_nth (m_rl s) b) loss' losses
                      (if better then loss else y_best st)
                      (if better then assignment3_of (m_data s) else y_assi st)
                      (if better then m_med s else y_meds st)
                      (y_iter st + m_iter s) (y_swaps st + m_swaps s)))
    end.

  (** dynmsc.rs:53-150 *)
  Definition dynmsc_c (med : list nat) (mink maxiter : nat) : res (dyn_result Lt) :=
    let k := length med in
    let minimum_k := Nat.min (Nat.max mink 1) k in
    if k =? 1 then
      r <- single_medoid M med ;;
      Ok (mkDR r [r_loss r])
    else
    '(loss, data) <- initial_assignment3 M med ;;
    st <- whileM k (dyn_round_c minimum_k maxiter)
                 (mkD med data (repeat lzero k) loss (repeat lzero (k - minimum_k + 1)) lzero
                      [0; mlen M] med 0 0) ;;
    st <- (if minimum_k <=? 2 then
             r <- fastermsc_k2 M (y_med st) maxiter ;;
             losses <- upd (y_losses st) (2 - minimum_k) (r_loss r) ;;
             let better := lltb (y_best st) (r_loss r) in
             Ok (mkD (r_med r) (y_data st) (y_rl st) (y_loss st) losses
                     (if better then r_loss r else y_best st)
                     (if better then r_assi r else y_assi st)
                     (if better then r_med r else y_meds st)
                     (y_iter st + r_iter r) (y_swaps st + r_swaps r))
           else Ok st) ;;
    losses <- (if minimum_k <=? 1 then upd (y_losses st) 0 lzero else Ok (y_losses st)) ;;
    Ok (mkDR (mkPR (y_best st) (y_assi st) (y_iter st) (y_swaps st) (y_meds st)) losses).
End CheckedMsc.
