(** M_Pammedsil.v -- model of src/pammedsil.rs *)
From Verif Require Import Base Num M_Mat M_Util M_Fasterpam M_Pam M_Silhouette M_Msc.
Set Implicit Arguments.

Section Pammedsil.
  Context {Nt Lt : Type} `{NumN Nt} `{NumL Lt} `{FromN Nt Lt}.
  Variable M : Mat Nt.

  (** pammedsil.rs:176-207, loop body for object [o] (swap of medoid [m] for [j]) *)
  Definition pms_step (j m : nat) (acc : Lt) (oreco : nat * Reco Nt) : res Lt :=
    let '(o, reco) := oreco in
    if o =? j then Ok acc else
    doj <- mget M o j ;;
    let dn := dd (near3 reco) in let ds := dd (seco3 reco) in let dt := dd (third3 reco) in
    Ok (if as_usize (di (near3 reco)) =? m then
          if nltb doj ds then ladd acc (lsub (ratio dn ds) (ratio doj ds))
          else if nltb doj dt then ladd acc (lsub (ratio dn ds) (ratio ds doj))
          else ladd acc (lsub (ratio dn ds) (ratio ds dt))
        else if as_usize (di (seco3 reco)) =? m then
          if nltb doj dn then ladd acc (lsub (ratio dn ds) (ratio doj dn))
          else if nltb doj dt then ladd acc (lsub (ratio dn ds) (ratio dn doj))
          else ladd acc (lsub (ratio dn ds) (ratio dn dt))
        else
          if nltb doj dn then ladd acc (lsub (ratio dn ds) (ratio doj dn))
          else if nltb doj ds then ladd acc (lsub (ratio dn ds) (ratio dn doj))
          else acc).

  (** pammedsil.rs:227-254, likewise for k = 2 *)
  Definition pms2_step (j m : nat) (acc : Lt) (oreco : nat * Reco Nt) : res Lt :=
    let '(o, reco) := oreco in
    if o =? j then Ok acc else
    doj <- mget M o j ;;
    let dn := dd (near3 reco) in let ds := dd (seco3 reco) in
    Ok (if as_usize (di (near3 reco)) =? m then
          if nltb doj ds then ladd acc (lsub (ratio dn ds) (ratio doj ds))
          else ladd acc (lsub (ratio dn ds) (ratio ds doj))
        else if as_usize (di (seco3 reco)) =? m then
          if nltb doj dn then ladd acc (lsub (ratio dn ds) (ratio doj dn))
          else ladd acc (lsub (ratio dn ds) (ratio dn doj))
        else
          if nltb doj dn then ladd acc (lsub (ratio dn ds) (ratio doj dn))
          else if nltb doj ds then ladd acc (lsub (ratio dn ds) (ratio dn doj))
          else acc).

  (** pammedsil.rs:166-213 ([step] = [pms_step]) and 217-260 ([step] = [pms2_step]) *)
  Definition find_best_swap_pms (step : nat -> nat -> Lt -> nat * Reco Nt -> res Lt)
      (med : list nat) (data : list (Reco Nt)) (j : nat) : res (Lt * option nat) :=
    recj <- idx data j ;;
    foldM (fun best m =>
             acc <- foldM (step j m) (enum data)
                          (ratio (dd (near3 recj)) (dd (seco3 recj))) ;;
             Ok (if lltb (fst best) acc then (acc, Some m) else best))
          (seq 0 (length med)) (lzero, None).

  (** pammedsil.rs:133-146, candidate loop *)
  Definition pms_cand (med : list nat) (data : list (Reco Nt))
      (best : Lt * option (nat * nat)) (j : nat) : res (Lt * option (nat * nat)) :=
    rj <- idx data j ;;
    mj <- idx med (as_usize (di (near3 rj))) ;;
    if j =? mj then Ok best else
    '(change, b) <- find_best_swap_pms (if length med =? 2 then pms2_step else pms_step) med data j ;;
    if lleb change (fst best) then Ok best
    else Ok (change, match b with Some b => Some (b, j) | None => None end).

  (** pammedsil.rs:130-158, one iteration *)
  Definition pms_iteration (st0 : mst Nt Lt) : res (ctl (mst Nt Lt)) :=
    let st := mkM (m_med st0) (m_data st0) (m_rl st0) (m_loss st0) (m_last st0) (m_swaps st0)
                  (S (m_iter st0)) in
    best <- foldM (pms_cand (m_med st) (m_data st)) (seq 0 (mlen M)) (lzero, None) ;;
    swap_best3 M st (m_rl st) best.

  (** pammedsil.rs:110-162 *)
  Definition pammedsil_optimize (med : list nat) (data : list (Reco Nt)) (maxiter : nat) (loss : Lt)
    : res (pam_result Lt) :=
    if length med =? 1 then single_medoid M med else
    st <- whileM maxiter pms_iteration (mkM med data [] loss 0 0 0) ;;
    Ok (mkPR (to_silhouette M (m_loss st)) (assignment3_of (m_data st)) (m_iter st) (m_swaps st)
             (m_med st)).

  (** pammedsil.rs:49-61 *)
  Definition pammedsil_swap (med : list nat) (maxiter : nat) : res (pam_result Lt) :=
    '(loss, data) <- initial_assignment3 M med ;;
    pammedsil_optimize med data maxiter loss.

  (** pammedsil.rs:313-332: update of the record of object [j] for new medoid [bj] with number
      [l], and the term added to the loss *)
  Definition build3_upd_obj (l bj : nat) (jrec : nat * Reco Nt) : res (Reco Nt * Lt) :=
    let '(j, recj) := jrec in
    recj' <-
      (if j =? bj then Ok (mkReco (DP (Some l) nzero) (near3 recj) (seco3 recj))
       else
         dj <- mget M j bj ;;
         Ok (if nltb dj (dd (near3 recj)) then
               mkReco (DP (Some l) dj) (near3 recj) (seco3 recj)
             else if is_marker (di (seco3 recj)) || nltb dj (dd (seco3 recj)) then
               mkReco (near3 recj) (DP (Some l) dj) (seco3 recj)
             else if is_marker (di (third3 recj)) || nltb dj (dd (third3 recj)) then
               mkReco (near3 recj) (seco3 recj) (DP (Some l) dj)
             else recj)) ;;
    Ok (recj', ratio (dd (near3 recj')) (dd (seco3 recj'))).

  (** Mutable variables of BUILD. *)
  Record b3st := mkB3 { b3_meds : list nat; b3_data : list (Reco Nt); b3_loss : Lt }.

  (** pammedsil.rs:294-334, one further medoid; note [.skip(1)] at line 296 *)
  Definition build3_step (k : nat) (st : b3st) (l : nat) : res (ctl b3st) :=
    best <- build_next M k (map (fun r => dd (near3 r)) (b3_data st))
                       (skipn 1 (map fst (enum (b3_data st)))) ;;
    if lleb lzero (fst best) then Ok (Break st) else
    rs <- mapM (build3_upd_obj l (snd best)) (enum (b3_data st)) ;;
    Ok (Next (mkB3 (b3_meds st ++ [snd best]) (map fst rs)
                   (fold_left (fun s x => ladd s (snd x)) rs lzero))).

  (** pammedsil.rs:263-336 *)
  Definition pammedsil_build_initialize (k : nat) : res b3st :=
    best <- build_first M k ;;
    data <- mapM (fun j => d <- mget M j (snd best) ;;
                           Ok (mkReco (DP (Some 0) d) (DP None nzero) (DP None nzero)))
                 (seq 0 (mlen M)) ;;
    forM (build3_step k) (seq 1 (k - 1)) (mkB3 [snd best] data (fst best)).

  (** pammedsil.rs:91-107 *)
  Definition pammedsil (k : nat) (maxiter : nat) : res (pam_result Lt) :=
    _ <- check_input M k ;;
    st <- pammedsil_build_initialize k ;;
    pammedsil_optimize (b3_meds st) (b3_data st) maxiter (b3_loss st).
End Pammedsil.
Arguments b3st : clear implicits.
