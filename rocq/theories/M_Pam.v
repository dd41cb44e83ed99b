(** M_Pam.v -- model of src/fastpam1.rs and src/pam.rs *)
From Verif Require Import Base Num M_Mat M_Util M_Fasterpam.
Set Implicit Arguments.

Section Pam.
  Context {Nt Lt : Type} `{NumN Nt} `{NumL Lt} `{FromN Nt Lt}.
  Variable M : Mat Nt.

  (** Mutable variables of the main loops of fastpam1 and pam. *)
  Record pst := mkP {
    p_med : list nat;
    p_data : list (Rec Nt);
    p_rl : list Lt;        (* removal_loss; not used by pam *)
    p_loss : Lt;
    p_swaps : nat;
    p_iter : nat
  }.

  (** [best = (L::zero(), usize::MAX, usize::MAX)] (fastpam1.rs:64) or
      [(L::zero(), k, usize::MAX)] (pam.rs:172): the loss and, once set, the pair (b, j).
      [None] stands for the initial, invalid indices. *)
  Definition best_swap := (Lt * option (nat * nat))%type.

  (** fastpam1.rs:66-75, candidate loop *)
  Definition fastpam1_cand (med : list nat) (data : list (Rec Nt)) (rl : list Lt)
      (best : best_swap) (j : nat) : res best_swap :=
    rj <- idx data j ;;
    mj <- idx med (as_usize (di (near rj))) ;;
    if j =? mj then Ok best else
    '(change, b) <- find_best_swap M rl data j ;;
    if lleb (fst best) change then Ok best else Ok (change, Some (b, j)).

  (** fastpam1.rs:76-86 = pam.rs:183-193: act on the best swap found; [Break] leaves the outer
      loop.  [do_swap] with the invalid initial indices would fail its assertion. *)
  Definition swap_best (st : pst) (rl : list Lt) (best : best_swap) : res (ctl pst) :=
    if lltb (fst best) lzero then
      match snd best with
      | None => Panic P_assert
      | Some (b, j) =>
          '(med', data', newloss) <- do_swap M (p_med st) (p_data st) b j ;;
          if lleb (p_loss st) newloss then
            Ok (Break (mkP med' data' rl (p_loss st) (S (p_swaps st)) (p_iter st)))
          else
            Ok (Next (mkP med' data' rl newloss (S (p_swaps st)) (p_iter st)))
      end
    else Ok (Break (mkP (p_med st) (p_data st) rl (p_loss st) (p_swaps st) (p_iter st))).

  (** fastpam1.rs:62-87, one iteration *)
  Definition fastpam1_iteration (st0 : pst) : res (ctl pst) :=
    let st := mkP (p_med st0) (p_data st0) (p_rl st0) (p_loss st0) (p_swaps st0) (S (p_iter st0)) in
    rl <- update_removal_loss (p_data st) (p_rl st) ;;
    best <- foldM (fastpam1_cand (p_med st) (p_data st) rl) (seq 0 (mlen M)) (lzero, None) ;;
    swap_best st rl best.

  (** fastpam1.rs:42-90 *)
  Definition fastpam1 (med : list nat) (maxiter : nat) : res (pam_result Lt) :=
    if length med =? 1 then single_medoid M med else
    '(loss, data) <- initial_assignment M med ;;
    st <- whileM maxiter fastpam1_iteration (mkP med data (repeat lzero (length med)) loss 0 0) ;;
    Ok (mkPR (p_loss st) (assignment_of (p_data st)) (p_iter st) (p_swaps st) (p_med st)).

  (** pam.rs:211-229: the loss change of replacing medoid [m] by [j] *)
  Definition pam_change_step (j m : nat) (acc : Lt) (oreco : nat * Rec Nt) : res Lt :=
    let '(o, reco) := oreco in
    if o =? j then Ok acc else
    doj <- mget M o j ;;
    Ok (if as_usize (di (near reco)) =? m then
          if nltb doj (dd (seco reco)) then
            ladd acc (lsub (lfrom doj) (lfrom (dd (near reco))))
          else
            ladd acc (lsub (lfrom (dd (seco reco))) (lfrom (dd (near reco))))
        else if nltb doj (dd (near reco)) then
          ladd acc (lsub (lfrom doj) (lfrom (dd (near reco))))
        else acc).

  (** pam.rs:201-235; [None] is the initial [usize::MAX] *)
  Definition find_best_swap_pam (med : list nat) (data : list (Rec Nt)) (j : nat)
    : res (Lt * option nat) :=
    recj <- idx data j ;;
    foldM (fun best m =>
             acc <- foldM (pam_change_step j m) (enum data) (lneg (lfrom (dd (near recj)))) ;;
             Ok (if lltb acc (fst best) then (acc, Some m) else best))
          (seq 0 (length med)) (lzero, None).

  (** pam.rs:173-182, candidate loop *)
  Definition pam_cand (med : list nat) (data : list (Rec Nt)) (best : best_swap) (j : nat)
    : res best_swap :=
    rj <- idx data j ;;
    mj <- idx med (as_usize (di (near rj))) ;;
    if j =? mj then Ok best else
    '(change, b) <- find_best_swap_pam med data j ;;
    if lleb (fst best) change then Ok best
    else Ok (change, match b with Some b => Some (b, j) | None => None end).

  (** pam.rs:170-194, one iteration *)
  Definition pam_iteration (st0 : pst) : res (ctl pst) :=
    let st := mkP (p_med st0) (p_data st0) (p_rl st0) (p_loss st0) (p_swaps st0) (S (p_iter st0)) in
    best <- foldM (pam_cand (p_med st) (p_data st)) (seq 0 (mlen M)) (lzero, None) ;;
    swap_best st (p_rl st) best.

  (** pam.rs:150-197 *)
  Definition pam_optimize (med : list nat) (data : list (Rec Nt)) (maxiter : nat) (loss : Lt)
    : res (pam_result Lt) :=
    if length med =? 1 then single_medoid M med else
    st <- whileM maxiter pam_iteration (mkP med data [] loss 0 0) ;;
    Ok (mkPR (p_loss st) (assignment_of (p_data st)) (p_iter st) (p_swaps st) (p_med st)).

  (** pam.rs:40-52 *)
  Definition pam_swap (med : list nat) (maxiter : nat) : res (pam_result Lt) :=
    '(loss, data) <- initial_assignment M med ;;
    pam_optimize med data maxiter loss.

  (** pam.rs:254-259 (= pamsil.rs:165-170, pammedsil.rs:278-283): sum over all j <> i *)
  Definition build_first_sum (i : nat) : res Lt :=
    foldM (fun s j => if negb (j =? i) then d <- mget M j i ;; Ok (ladd s (lfrom d)) else Ok s)
          (seq 0 (mlen M)) lzero.

  (** pam.rs:252-263 (= pamsil.rs:163-174, pammedsil.rs:276-287): the first medoid.
      [best] starts as [(0, k)]. *)
  Definition build_first (k : nat) : res (Lt * nat) :=
    foldM (fun best i =>
             sum <- build_first_sum i ;;
             Ok (if (i =? 0) || lltb sum (fst best) then (sum, i) else best))
          (seq 0 (mlen M)) (lzero, k).

  (** pam.rs:273-281 (= pamsil.rs:185-193, pammedsil.rs:297-305): loss change of adding medoid
      [i], [dn] being the current distances to the nearest medoid *)
  Definition build_next_sum (dn : list Nt) (i : nat) : res Lt :=
    di0 <- idx dn i ;;
    foldM (fun s '(j, dj) =>
             if negb (j =? i) then
               d <- mget M j i ;;
               Ok (if nltb d dj then ladd s (lsub (lfrom d) (lfrom dj)) else s)
             else Ok s)
          (enum dn) (lneg (lfrom di0)).

  (** pam.rs:271-285: best candidate among [cands] *)
  Definition build_next (k : nat) (dn : list Nt) (cands : list nat) : res (Lt * nat) :=
    foldM (fun best i =>
             sum <- build_next_sum dn i ;;
             Ok (if (i =? 0) || lltb sum (fst best) then (sum, i) else best))
          cands (lzero, k).

  (** pam.rs:289-303: update of the record of object [j] for new medoid [bj] with number [l];
      the second component is [Some] when the loss is incremented (line 302) *)
  Definition build_upd_obj (l bj : nat) (jrec : nat * Rec Nt) : res (Rec Nt * option Lt) :=
    let '(j, recj) := jrec in
    if j =? bj then Ok (mkRec (DP (Some l) nzero) (near recj), None)
    else
      dj <- mget M j bj ;;
      let recj' :=
        if nltb dj (dd (near recj)) then mkRec (DP (Some l) dj) (near recj)
        else if is_marker (di (seco recj)) || nltb dj (dd (seco recj)) then
          mkRec (near recj) (DP (Some l) dj)
        else recj in
      Ok (recj', Some (lfrom (dd (near recj')))).

  (** Mutable variables of BUILD. *)
  Record bst := mkB { b_meds : list nat; b_data : list (Rec Nt); b_loss : Lt }.

  (** pam.rs:270-305, one further medoid; [Break] when there is no improvement (line 286) *)
  Definition build_step (k : nat) (st : bst) (l : nat) : res (ctl bst) :=
    best <- build_next k (map (fun r => dd (near r)) (b_data st))
                       (map fst (enum (b_data st))) ;;
    if lleb lzero (fst best) then Ok (Break st) else
    rs <- mapM (build_upd_obj l (snd best)) (enum (b_data st)) ;;
    let loss := fold_left (fun s x => match snd x with Some v => ladd s v | None => s end)
                          rs lzero in
    Ok (Next (mkB (b_meds st ++ [snd best]) (map fst rs) loss)).

  (** pam.rs:238-307 *)
  Definition pam_build_initialize (k : nat) : res bst :=
    sq <- msquare M ;;
    _ <- assertb sq P_not_square ;;
    best <- build_first k ;;
    data <- mapM (fun j => d <- mget M j (snd best) ;; Ok (mkRec (DP (Some 0) d) (DP None nzero)))
                 (seq 0 (mlen M)) ;;
    forM (build_step k) (seq 1 (k - 1)) (mkB [snd best] data (fst best)).

  (** pam.rs:82-98; returns (loss, assi, meds) *)
  Definition pam_build (k : nat) : res (Lt * list nat * list nat) :=
    _ <- check_input M k ;;
    st <- pam_build_initialize k ;;
    Ok (b_loss st, assignment_of (b_data st), b_meds st).

  (** pam.rs:131-147; returns (nloss, assi, meds, n_iter, n_swap) as a [pam_result] *)
  Definition pam (k : nat) (maxiter : nat) : res (pam_result Lt) :=
    _ <- check_input M k ;;
    st <- pam_build_initialize k ;;
    pam_optimize (b_meds st) (b_data st) maxiter (b_loss st).
End Pam.
Arguments pst : clear implicits.
Arguments bst : clear implicits.
