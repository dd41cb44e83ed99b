(** M_Cost.v -- the model again, counting how often the dissimilarity matrix is read.

    Reading an entry ([mat.get(i, j)]) is what all algorithms of the crate spend their time on, and, with
    an [ArrayAdapter] that computes dissimilarities, what is expensive.  Every function below has the same text
    as the function of the model with the same name (without [_n]), over the monad [cres] which adds
    up the calls of [mget].  The texts are copies of those in M_Util.v, M_Fasterpam.v, M_Pam.v,
    M_Alternating.v, M_Silhouette.v, M_Msc.v and M_Pammedsil.v; that they compute the same results is
    proved in CostFacts.v.  Not counted: what the debug assertions read. *)
From Verif Require Import Base Num M_Mat M_Util M_Fasterpam M_Pam M_Alternating M_Silhouette M_Msc M_Pammedsil.
Set Implicit Arguments.

(** A computation that may panic, with the number of entries it read (until it panicked). *)
Definition cres (A : Type) : Type := (nat * res A)%type.

Definition cret {A} (a : A) : cres A := (0, Ok a).
Definition cpanic {A} (p : panic) : cres A := (0, Panic p).

(** a computation that reads nothing *)
Definition lift {A} (m : res A) : cres A := (0, m).

Definition cbind {A B} (m : cres A) (f : A -> cres B) : cres B :=
  match snd m with
  | Ok a => let r := f a in (fst m + fst r, snd r)
  | Panic p => (fst m, Panic p)
  end.

Declare Scope cost_scope.
Notation "x <- m ;; k" := (cbind m (fun x => k))
  (at level 61, m at next level, right associativity) : cost_scope.
Notation "' pat <- m ;; k" := (cbind m (fun x => match x with pat => k end))
  (at level 61, pat pattern, m at next level, right associativity) : cost_scope.
Open Scope cost_scope.

(** The loops of Base.v. *)
Fixpoint cfoldM {A S} (f : S -> A -> cres S) (l : list A) (s : S) : cres S :=
  match l with
  | [] => cret s
  | a :: l' => s' <- f s a ;; cfoldM f l' s'
  end.

Fixpoint cmapM {A B} (f : A -> cres B) (l : list A) : cres (list B) :=
  match l with
  | [] => cret []
  | a :: l' => b <- f a ;; bs <- cmapM f l' ;; cret (b :: bs)
  end.

Fixpoint cforM {A S} (body : S -> A -> cres (ctl S)) (l : list A) (s : S) : cres S :=
  match l with
  | [] => cret s
  | a :: l' =>
      c <- body s a ;;
      match c with
      | Next s' => cforM body l' s'
      | Break s' => cret s'
      end
  end.

Fixpoint cwhileM {S} (fuel : nat) (body : S -> cres (ctl S)) (s : S) : cres S :=
  match fuel with
  | 0 => cret s
  | S fuel' =>
      c <- body s ;;
      match c with
      | Next s' => cwhileM fuel' body s'
      | Break s' => cret s'
      end
  end.

Section Cost.
  Context {Nt Lt : Type} `{NumN Nt} `{NumL Lt} `{FromN Nt Lt}.
  Variable M : Mat Nt.

  (** [mat.get(x, y)], arrayadapter.rs:7-14 *)
  Definition cget (x y : nat) : cres Nt := (1, mget M x y).

  (** ** M_Util.v *)
  (** util.rs:123-128, [member_sum] *)
  Definition member_sum_n (assi : list nat) (m c : nat) : cres Lt :=
    cfoldM (fun s '(i, a) =>
             if negb (c =? i) && (a =? m)
             then d <- cget c i ;; cret (ladd s (lfrom d))
             else cret s)
          (enum assi) lzero.

  (** util.rs:110-145, [choose_medoid_within_partition] *)
  Definition choose_medoid_within_partition_n (assi : list nat) (med : list nat) (m : nat)
    : cres (list nat * bool * Lt) :=
    first <- lift (idx med m) ;;
    sumb <- member_sum_n assi m first ;;
    '(best, sumb) <-
      cfoldM (fun bs '(j, aj) =>
               if negb (j =? first) && (aj =? m) then
                 sumj <- member_sum_n assi m j ;;
                 (if lltb sumj (snd bs) then cret (j, sumj) else cret bs)
               else cret bs)
            (enum assi) (first, sumb) ;;
    med' <- lift (upd med m best) ;;
    cret (med', negb (best =? first), sumb).


  (** ** M_Fasterpam.v *)
  (** fasterpam.rs:194-202, [ia_step] *)
  Definition ia_step_n (i : nat) (cur : Rec Nt) (mme : nat * nat) : cres (Rec Nt) :=
    let '(m, me) := mme in
    d <- cget i me ;;
    cret (if nltb d (dd (near cur)) || (i =? me) then
          mkRec (DP (Some m) d) (near cur)
        else if is_marker (di (seco cur)) || nltb d (dd (seco cur)) then
          mkRec (near cur) (DP (Some m) d)
        else cur).

  (** fasterpam.rs:192-204, [ia_obj] *)
  Definition ia_obj_n (med : list nat) (firstcenter : nat) (i : nat) : cres (Rec Nt * Lt) :=
    d0 <- cget i firstcenter ;;
    cur <- cfoldM (ia_step_n i) (skipn 1 (enum med))
                 (mkRec (DP (Some 0) d0) (DP None nzero)) ;;
    cret (cur, lfrom (dd (near cur))).

  (** fasterpam.rs:175-208, [initial_assignment] *)
  Definition initial_assignment_n (med : list nat) : cres (Lt * list (Rec Nt)) :=
    _ <- lift (check_input M (length med)) ;;
    firstcenter <- lift (idx med 0) ;;
    rs <- cmapM (ia_obj_n med firstcenter) (seq 0 (mlen M)) ;;
    loss <- lift (unwrap (reduce ladd (map snd rs))) ;;
    cret (loss, map fst rs).

  (** fasterpam.rs:226-237, [fbs_step] *)
  Definition fbs_step_n (j : nat) (st : list Lt * Lt) (oreco : nat * Rec Nt) : cres (list Lt * Lt) :=
    let '(ploss, acc) := st in
    let '(o, reco) := oreco in
    doj <- cget o j ;;
    if nltb doj (dd (near reco)) then
      let acc := ladd acc (lsub (lfrom doj) (lfrom (dd (near reco)))) in
      ploss <- lift (add_at ploss (as_usize (di (near reco)))
                      (lsub (lfrom (dd (near reco))) (lfrom (dd (seco reco))))) ;;
      cret (ploss, acc)
    else if nltb doj (dd (seco reco)) then
      ploss <- lift (add_at ploss (as_usize (di (near reco)))
                      (lsub (lfrom doj) (lfrom (dd (seco reco))))) ;;
      cret (ploss, acc)
    else cret (ploss, acc).

  (** fasterpam.rs:212-240, [find_best_swap] *)
  Definition find_best_swap_n (removal_loss : list Lt) (data : list (Rec Nt)) (j : nat)
    : cres (Lt * nat) :=
    '(ploss, acc) <- cfoldM (fbs_step_n j) (enum data) (removal_loss, lzero) ;;
    '(b, bloss) <- lift (find_min ploss) ;;
    cret (ladd bloss acc, b).

  (** fasterpam.rs:258-281, [update_second_nearest] *)
  Definition update_second_nearest_n (med : list nat) (n b o : nat) (doj : Nt) : cres (dpair Nt) :=
    cfoldM (fun s '(i, mi) =>
             if (i =? n) || (i =? b) then cret s
             else d <- cget o mi ;;
                  cret (if nltb d (dd s) then DP (Some i) d else s))
          (enum med) (DP (Some b) doj).

  (** fasterpam.rs:303-333, [do_swap_obj] *)
  Definition do_swap_obj_n (med : list nat) (b j : nat) (oreco : nat * Rec Nt)
    : cres (Rec Nt * Lt) :=
    let '(o, reco) := oreco in
    if o =? j then
      let se := if negb (ieqb (di (near reco)) b) then near reco else seco reco in
      cret (mkRec (DP (Some b) nzero) se, lzero)
    else
      doj <- cget o j ;;
      reco' <-
        (if ieqb (di (near reco)) b then
           if nltb doj (dd (seco reco)) then
             cret (mkRec (DP (Some b) doj) (seco reco))
           else
             s <- update_second_nearest_n med (as_usize (di (seco reco))) b o doj ;;
             cret (mkRec (seco reco) s)
         else
           if nltb doj (dd (near reco)) then
             cret (mkRec (DP (Some b) doj) (near reco))
           else if nltb doj (dd (seco reco)) then
             cret (mkRec (near reco) (DP (Some b) doj))
           else if ieqb (di (seco reco)) b then
             s <- update_second_nearest_n med (as_usize (di (near reco))) b o doj ;;
             cret (mkRec (near reco) s)
           else cret reco) ;;
      cret (reco', lfrom (dd (near reco'))).

  (** fasterpam.rs:285-336, [do_swap] *)
  Definition do_swap_n (med : list nat) (data : list (Rec Nt)) (b j : nat)
    : cres (list nat * list (Rec Nt) * Lt) :=
    _ <- lift (assertb (b <? length med) P_assert) ;;
    _ <- lift (assertb (j <? mlen M) P_assert) ;;
    med' <- lift (upd med b j) ;;
    rs <- cmapM (do_swap_obj_n med' b j) (enum data) ;;
    loss <- lift (unwrap (reduce ladd (map snd rs))) ;;
    cret (med', map fst rs, loss).

  (** fasterpam.rs:63-79, [fp_cand] *)
  Definition fp_cand_n (st : fpst Nt Lt) (j : nat) : cres (ctl (fpst Nt Lt)) :=
    if j =? fp_last st then cret (Break st) else
    rj <- lift (idx (fp_data st) j) ;;
    mj <- lift (idx (fp_med st) (as_usize (di (near rj)))) ;;
    if j =? mj then cret (Next st) else
    '(change, b) <- find_best_swap_n (fp_rl st) (fp_data st) j ;;
    if lleb lzero change then cret (Next st) else
    '(med', data', loss') <- do_swap_n (fp_med st) (fp_data st) b j ;;
    rl' <- lift (update_removal_loss data' (fp_rl st)) ;;
    cret (Next (mkFp med' data' rl' loss' j (S (fp_swaps st)) (fp_iter st))).

  (** fasterpam.rs:60-83, [fp_iteration] *)
  Definition fp_iteration_n (order : list nat) (st : fpst Nt Lt) : cres (ctl (fpst Nt Lt)) :=
    let swaps_before := fp_swaps st in
    let lastloss := fp_loss st in
    st' <- cforM fp_cand_n order
                (mkFp (fp_med st) (fp_data st) (fp_rl st) (fp_loss st) (fp_last st)
                      (fp_swaps st) (S (fp_iter st))) ;;
    if (fp_swaps st' =? swaps_before) || lleb lastloss (fp_loss st')
    then cret (Break st') else cret (Next st').

  (** fasterpam.rs:50-54, [single_medoid] *)
  Definition single_medoid_n (med : list nat) : cres (pam_result Lt) :=
    let assi := repeat 0 (mlen M) in
    '(med', swapped, loss) <- choose_medoid_within_partition_n assi med 0 ;;
    cret (mkPR loss assi 1 (if swapped then 1 else 0) med').

  (** fasterpam.rs:49-86, [fasterpam_order] *)
  Definition fasterpam_order_n (order : list nat) (med : list nat) (maxiter : nat)
    : cres (pam_result Lt) :=
    if length med =? 1 then single_medoid_n med else
    '(loss, data) <- initial_assignment_n med ;;
    rl <- lift (update_removal_loss data (repeat lzero (length med))) ;;
    st <- cwhileM maxiter (fp_iteration_n order) (mkFp med data rl loss (mlen M) 0 0) ;;
    cret (mkPR (fp_loss st) (assignment_of (fp_data st)) (fp_iter st) (fp_swaps st) (fp_med st)).


  (** ** M_Pam.v *)
  (** fastpam1.rs:66-75, [fastpam1_cand] *)
  Definition fastpam1_cand_n (med : list nat) (data : list (Rec Nt)) (rl : list Lt)
      (best : best_swap) (j : nat) : cres best_swap :=
    rj <- lift (idx data j) ;;
    mj <- lift (idx med (as_usize (di (near rj)))) ;;
    if j =? mj then cret best else
    '(change, b) <- find_best_swap_n rl data j ;;
    if lleb (fst best) change then cret best else cret (change, Some (b, j)).

  (** fastpam1.rs:76-86, [swap_best] *)
  Definition swap_best_n (st : pst Nt Lt) (rl : list Lt) (best : best_swap) : cres (ctl (pst Nt Lt)) :=
    if lltb (fst best) lzero then
      match snd best with
      | None => cpanic P_assert
      | Some (b, j) =>
          '(med', data', newloss) <- do_swap_n (p_med st) (p_data st) b j ;;
          if lleb (p_loss st) newloss then
            cret (Break (mkP med' data' rl (p_loss st) (S (p_swaps st)) (p_iter st)))
          else
            cret (Next (mkP med' data' rl newloss (S (p_swaps st)) (p_iter st)))
      end
    else cret (Break (mkP (p_med st) (p_data st) rl (p_loss st) (p_swaps st) (p_iter st))).

  (** fastpam1.rs:62-87, [fastpam1_iteration] *)
  Definition fastpam1_iteration_n (st0 : pst Nt Lt) : cres (ctl (pst Nt Lt)) :=
    let st := mkP (p_med st0) (p_data st0) (p_rl st0) (p_loss st0) (p_swaps st0) (S (p_iter st0)) in
    rl <- lift (update_removal_loss (p_data st) (p_rl st)) ;;
    best <- cfoldM (fastpam1_cand_n (p_med st) (p_data st) rl) (seq 0 (mlen M)) (lzero, None) ;;
    swap_best_n st rl best.

  (** fastpam1.rs:42-90, [fastpam1] *)
  Definition fastpam1_n (med : list nat) (maxiter : nat) : cres (pam_result Lt) :=
    if length med =? 1 then single_medoid_n med else
    '(loss, data) <- initial_assignment_n med ;;
    st <- cwhileM maxiter fastpam1_iteration_n (mkP med data (repeat lzero (length med)) loss 0 0) ;;
    cret (mkPR (p_loss st) (assignment_of (p_data st)) (p_iter st) (p_swaps st) (p_med st)).

  (** pam.rs:211-229, [pam_change_step] *)
  Definition pam_change_step_n (j m : nat) (acc : Lt) (oreco : nat * Rec Nt) : cres Lt :=
    let '(o, reco) := oreco in
    if o =? j then cret acc else
    doj <- cget o j ;;
    cret (if as_usize (di (near reco)) =? m then
          if nltb doj (dd (seco reco)) then
            ladd acc (lsub (lfrom doj) (lfrom (dd (near reco))))
          else
            ladd acc (lsub (lfrom (dd (seco reco))) (lfrom (dd (near reco))))
        else if nltb doj (dd (near reco)) then
          ladd acc (lsub (lfrom doj) (lfrom (dd (near reco))))
        else acc).

  (** pam.rs:201-235, [find_best_swap_pam] *)
  Definition find_best_swap_pam_n (med : list nat) (data : list (Rec Nt)) (j : nat)
    : cres (Lt * option nat) :=
    recj <- lift (idx data j) ;;
    cfoldM (fun best m =>
             acc <- cfoldM (pam_change_step_n j m) (enum data) (lneg (lfrom (dd (near recj)))) ;;
             cret (if lltb acc (fst best) then (acc, Some m) else best))
          (seq 0 (length med)) (lzero, None).

  (** pam.rs:173-182, [pam_cand] *)
  Definition pam_cand_n (med : list nat) (data : list (Rec Nt)) (best : best_swap) (j : nat)
    : cres best_swap :=
    rj <- lift (idx data j) ;;
    mj <- lift (idx med (as_usize (di (near rj)))) ;;
    if j =? mj then cret best else
    '(change, b) <- find_best_swap_pam_n med data j ;;
    if lleb (fst best) change then cret best
    else cret (change, match b with Some b => Some (b, j) | None => None end).

  (** pam.rs:170-194, [pam_iteration] *)
  Definition pam_iteration_n (st0 : pst Nt Lt) : cres (ctl (pst Nt Lt)) :=
    let st := mkP (p_med st0) (p_data st0) (p_rl st0) (p_loss st0) (p_swaps st0) (S (p_iter st0)) in
    best <- cfoldM (pam_cand_n (p_med st) (p_data st)) (seq 0 (mlen M)) (lzero, None) ;;
    swap_best_n st (p_rl st) best.

  (** pam.rs:150-197, [pam_optimize] *)
  Definition pam_optimize_n (med : list nat) (data : list (Rec Nt)) (maxiter : nat) (loss : Lt)
    : cres (pam_result Lt) :=
    if length med =? 1 then single_medoid_n med else
    st <- cwhileM maxiter pam_iteration_n (mkP med data [] loss 0 0) ;;
    cret (mkPR (p_loss st) (assignment_of (p_data st)) (p_iter st) (p_swaps st) (p_med st)).

  (** pam.rs:40-52, [pam_swap] *)
  Definition pam_swap_n (med : list nat) (maxiter : nat) : cres (pam_result Lt) :=
    '(loss, data) <- initial_assignment_n med ;;
    pam_optimize_n med data maxiter loss.

  (** pam.rs:254-259, [build_first_sum] *)
  Definition build_first_sum_n (i : nat) : cres Lt :=
    cfoldM (fun s j => if negb (j =? i) then d <- cget j i ;; cret (ladd s (lfrom d)) else cret s)
          (seq 0 (mlen M)) lzero.

  (** pam.rs:252-263, [build_first] *)
  Definition build_first_n (k : nat) : cres (Lt * nat) :=
    cfoldM (fun best i =>
             sum <- build_first_sum_n i ;;
             cret (if (i =? 0) || lltb sum (fst best) then (sum, i) else best))
          (seq 0 (mlen M)) (lzero, k).

  (** pam.rs:273-281, [build_next_sum] *)
  Definition build_next_sum_n (dn : list Nt) (i : nat) : cres Lt :=
    di0 <- lift (idx dn i) ;;
    cfoldM (fun s '(j, dj) =>
             if negb (j =? i) then
               d <- cget j i ;;
               cret (if nltb d dj then ladd s (lsub (lfrom d) (lfrom dj)) else s)
             else cret s)
          (enum dn) (lneg (lfrom di0)).

  (** pam.rs:271-285, [build_next] *)
  Definition build_next_n (k : nat) (dn : list Nt) (cands : list nat) : cres (Lt * nat) :=
    cfoldM (fun best i =>
             sum <- build_next_sum_n dn i ;;
             cret (if (i =? 0) || lltb sum (fst best) then (sum, i) else best))
          cands (lzero, k).

  (** pam.rs:289-303, [build_upd_obj] *)
  Definition build_upd_obj_n (l bj : nat) (jrec : nat * Rec Nt) : cres (Rec Nt * option Lt) :=
    let '(j, recj) := jrec in
    if j =? bj then cret (mkRec (DP (Some l) nzero) (near recj), None)
    else
      dj <- cget j bj ;;
      let recj' :=
        if nltb dj (dd (near recj)) then mkRec (DP (Some l) dj) (near recj)
        else if is_marker (di (seco recj)) || nltb dj (dd (seco recj)) then
          mkRec (near recj) (DP (Some l) dj)
        else recj in
      cret (recj', Some (lfrom (dd (near recj')))).

  (** pam.rs:270-305, [build_step] *)
  Definition build_step_n (k : nat) (st : bst Nt Lt) (l : nat) : cres (ctl (bst Nt Lt)) :=
    best <- build_next_n k (map (fun r => dd (near r)) (b_data st))
                       (map fst (enum (b_data st))) ;;
    if lleb lzero (fst best) then cret (Break st) else
    rs <- cmapM (build_upd_obj_n l (snd best)) (enum (b_data st)) ;;
    let loss := fold_left (fun s x => match snd x with Some v => ladd s v | None => s end)
                          rs lzero in
    cret (Next (mkB (b_meds st ++ [snd best]) (map fst rs) loss)).

  (** pam.rs:238-307, [pam_build_initialize] *)
  Definition pam_build_initialize_n (k : nat) : cres (bst Nt Lt) :=
    sq <- lift (msquare M) ;;
    _ <- lift (assertb sq P_not_square) ;;
    best <- build_first_n k ;;
    data <- cmapM (fun j => d <- cget j (snd best) ;; cret (mkRec (DP (Some 0) d) (DP None nzero)))
                 (seq 0 (mlen M)) ;;
    cforM (build_step_n k) (seq 1 (k - 1)) (mkB [snd best] data (fst best)).

  (** pam.rs:131-147, [pam] *)
  Definition pam_n (k : nat) (maxiter : nat) : cres (pam_result Lt) :=
    _ <- lift (check_input M k) ;;
    st <- pam_build_initialize_n k ;;
    pam_optimize_n (b_meds st) (b_data st) maxiter (b_loss st).


  (** ** M_Alternating.v *)
  (** alternating.rs:82-92, [an_obj] *)
  Definition an_obj_n (med : list nat) (firstcenter : nat) (i : nat) : cres (nat * Lt) :=
    d0 <- cget i firstcenter ;;
    best <- cfoldM (fun best '(m, mm) =>
                     dm <- cget i mm ;;
                     cret (if nltb dm (snd best) || (i =? mm) then (m, dm) else best))
                  (skipn 1 (enum med)) (0, d0) ;;
    cret (fst best, lfrom (snd best)).

  (** alternating.rs:66-95, [assign_nearest] *)
  Definition assign_nearest_n (med : list nat) : cres (Lt * list nat) :=
    _ <- lift (check_input M (length med)) ;;
    firstcenter <- lift (idx med 0) ;;
    rs <- cmapM (an_obj_n med firstcenter) (seq 0 (mlen M)) ;;
    cret (match reduce ladd (map snd rs) with Some l => l | None => lzero end, map fst rs).

  (** alternating.rs:51-54, [alt_medoids] *)
  Definition alt_medoids_n (assi : list nat) (med : list nat) : cres (list nat * bool) :=
    cfoldM (fun '(med, changed) i =>
             '(med', c, _) <- choose_medoid_within_partition_n assi med i ;;
             cret (med', changed || c))
          (seq 0 (length med)) (med, false).

  (** alternating.rs:49-59, [alt_iteration] *)
  Definition alt_iteration_n (st : ast Lt) : cres (ctl (ast Lt)) :=
    '(med', changed) <- alt_medoids_n (al_assi st) (al_med st) ;;
    if negb changed then cret (Break (mkA med' (al_assi st) (al_loss st) (S (al_iter st)))) else
    '(loss', assi') <- assign_nearest_n med' ;;
    cret (Next (mkA med' assi' loss' (S (al_iter st)))).

  (** alternating.rs:40-61, [alternating] *)
  Definition alternating_n (med : list nat) (maxiter : nat) : cres (pam_result Lt) :=
    '(loss, assi) <- assign_nearest_n med ;;
    st <- cwhileM maxiter alt_iteration_n (mkA med assi loss 0) ;;
    cret (mkPR (al_loss st) (al_assi st) (al_iter st) 0 (al_med st)).


  (** ** M_Silhouette.v *)
  (** silhouette.rs:61-69, [sil_buf] *)
  Definition sil_buf_n (assi : list nat) (i : nat) : cres (list (nat * Lt)) :=
    cfoldM (fun buf '(j, aj) =>
             let buf := grow buf aj in
             if negb (i =? j) then
               p <- lift (idx buf aj) ;;
               d <- cget i j ;;
               lift (upd buf aj (S (fst p), ladd (snd p) (lfrom d)))
             else cret buf)
          (enum assi) [].

  (** silhouette.rs:59-91, [sil_step] *)
  Definition sil_step_n (samples : bool) (assi : list nat) (st : slst Lt) (iai : nat * nat)
    : cres (ctl (slst Lt)) :=
    let '(i, ai) := iai in
    buf <- sil_buf_n assi i ;;
    if length buf =? 1 then cret (Break (mkSl true (sl_sum st) (sl_vec st))) else
    s <- lift (sil_of_buf buf ai) ;;
    vec <- lift (if samples then upd (sl_vec st) i s else Ok (sl_vec st)) ;;
    cret (Next (mkSl false (ladd (sl_sum st) s) vec)).

  (** silhouette.rs:41-96, [silhouette] *)
  Definition silhouette_n (assi : list nat) (samples : bool) : cres (Lt * list Lt) :=
    sq <- lift (msquare M) ;;
    _ <- lift (assertb sq P_not_square) ;;
    st <- cforM (sil_step_n samples assi) (enum assi)
               (mkSl false lzero (repeat lzero (if samples then length assi else 0))) ;;
    if sl_done st then cret (lzero, sl_vec st) else
    _ <- lift (assertb (negb samples || (length (sl_vec st) =? length assi)) P_assert) ;;
    cret (ldiv (sl_sum st) (lfrom_u32 (as_u32 (length assi))), sl_vec st).

  (** par_silhouette.rs:44-95, [par_silhouette] *)
  Definition par_silhouette_n (assi : list nat) : cres Lt :=
    sq <- lift (msquare M) ;;
    _ <- lift (assertb sq P_not_square) ;;
    ss <- cmapM (fun '(i, ai) => buf <- sil_buf_n assi i ;; lift (sil_of_buf buf ai)) (enum assi) ;;
    cret (ldiv (fold_left ladd ss lzero) (lfrom_u32 (as_u32 (length assi)))).

  (** silhouette.rs:158-168, [ms_best] *)
  Definition ms_best_n (meds : list nat) (i : nat) : cres (Nt * Nt) :=
    m0 <- lift (idx meds 0) ;; d1 <- cget i m0 ;;
    m1 <- lift (idx meds 1) ;; d2 <- cget i m1 ;;
    cfoldM (fun best m =>
             d <- cget i m ;;
             cret (if nltb d (fst best) then (d, fst best)
                 else if nltb d (snd best) then (fst best, d) else best))
          (skipn 2 meds) (if nltb d1 d2 then (d1, d2) else (d2, d1)).

  (** silhouette.rs:157-174, [ms_step] *)
  Definition ms_step_n (meds : list nat) (samples : bool) (st : Lt * list Lt) (i : nat)
    : cres (Lt * list Lt) :=
    let '(loss, sil) := st in
    best <- ms_best_n meds i ;;
    if negb (nis_zero (fst best)) then
      let s := ldiv (lfrom (fst best)) (lfrom (snd best)) in
      sil' <- lift (if samples then upd sil i (lsub lone s) else Ok sil) ;;
      cret (ladd loss s, sil')
    else cret (loss, sil).

  (** silhouette.rs:135-177, [medoid_silhouette] *)
  Definition medoid_silhouette_n (meds : list nat) (samples : bool) : cres (Lt * list Lt) :=
    sq <- lift (msquare M) ;;
    _ <- lift (assertb sq P_not_square) ;;
    _ <- lift (assertb (N.of_nat (mlen M) <=? u32_max)%N P_n_too_large) ;;
    let sil := repeat lone (if samples then mlen M else 0) in
    if length meds =? 1 then cret (lone, sil) else
    _ <- lift (assertb (length meds <=? mlen M) P_k_gt_n) ;;
    '(loss, sil) <- cfoldM (ms_step_n meds samples) (seq 0 (mlen M)) (lzero, sil) ;;
    cret (lsub lone (ldiv loss (lfrom_u32 (as_u32 (mlen M)))), sil).


  (** ** M_Msc.v *)
  (** fastermsc.rs:123-133, [ia3_step] *)
  Definition ia3_step_n (i : nat) (cur : Reco Nt) (mme : nat * nat) : cres (Reco Nt) :=
    let '(m, me) := mme in
    d <- cget i me ;;
    cret (if nltb d (dd (near3 cur)) || (i =? me) then
          mkReco (DP (Some m) d) (near3 cur) (seco3 cur)
        else if is_marker (di (seco3 cur)) || nltb d (dd (seco3 cur)) then
          mkReco (near3 cur) (DP (Some m) d) (seco3 cur)
        else if is_marker (di (third3 cur)) || nltb d (dd (third3 cur)) then
          mkReco (near3 cur) (seco3 cur) (DP (Some m) d)
        else cur).

  (** fastermsc.rs:120-136, [ia3_obj] *)
  Definition ia3_obj_n (med : list nat) (firstcenter : nat) (i : nat) : cres (Reco Nt * Lt) :=
    d0 <- cget i firstcenter ;;
    cur <- cfoldM (ia3_step_n i) (skipn 1 (enum med))
                 (mkReco (DP (Some 0) d0) (DP None nzero) (DP None nzero)) ;;
    cret (cur, ratio (dd (near3 cur)) (dd (seco3 cur))).

  (** fastermsc.rs:104-140, [initial_assignment3] *)
  Definition initial_assignment3_n (med : list nat) : cres (Lt * list (Reco Nt)) :=
    _ <- lift (check_input M (length med)) ;;
    firstcenter <- lift (idx med 0) ;;
    rs <- cmapM (ia3_obj_n med firstcenter) (seq 0 (mlen M)) ;;
    loss <- lift (unwrap (reduce ladd (map snd rs))) ;;
    cret (loss, map fst rs).

  (** fastermsc.rs:158-177, [fbs3_step] *)
  Definition fbs3_step_n (j : nat) (st : list Lt * Lt) (oreco : nat * Reco Nt) : cres (list Lt * Lt) :=
    let '(ploss, acc) := st in
    let '(o, reco) := oreco in
    doj <- cget o j ;;
    let dn := dd (near3 reco) in let ds := dd (seco3 reco) in let dt := dd (third3 reco) in
    let ni := as_usize (di (near3 reco)) in let si := as_usize (di (seco3 reco)) in
    if nltb doj dn then
      let acc := ladd acc (lsub (ratio dn ds) (ratio doj dn)) in
      ploss <- lift (add_at ploss ni (lsub (ladd (ratio doj dn) (ratio ds dt)) (ratio (nadd dn doj) ds))) ;;
      ploss <- lift (add_at ploss si (lsub (ratio dn dt) (ratio dn ds))) ;;
      cret (ploss, acc)
    else if nltb doj ds then
      let acc := ladd acc (lsub (ratio dn ds) (ratio dn doj)) in
      ploss <- lift (add_at ploss ni (lsub (ladd (ratio dn doj) (ratio ds dt)) (ratio (nadd dn doj) ds))) ;;
      ploss <- lift (add_at ploss si (lsub (ratio dn dt) (ratio dn ds))) ;;
      cret (ploss, acc)
    else if nltb doj dt then
      ploss <- lift (add_at ploss ni (lsub (ratio ds dt) (ratio ds doj))) ;;
      ploss <- lift (add_at ploss si (lsub (ratio dn dt) (ratio dn doj))) ;;
      cret (ploss, acc)
    else cret (ploss, acc).

  (** fastermsc.rs:144-180, [find_best_swap3] *)
  Definition find_best_swap3_n (removal_loss : list Lt) (data : list (Reco Nt)) (j : nat)
    : cres (Lt * nat) :=
    '(ploss, acc) <- cfoldM (fbs3_step_n j) (enum data) (removal_loss, lzero) ;;
    '(b, bloss) <- lift (find_max ploss) ;;
    cret (ladd bloss acc, b).

  (** fastermsc.rs:199-223, [update_third_nearest] *)
  Definition update_third_nearest_n (med : list nat) (n s b o : nat) (doj : Nt) : cres (dpair Nt) :=
    cfoldM (fun dist '(i, mi) =>
             if (i =? n) || (i =? b) || (i =? s) then cret dist
             else d <- cget o mi ;;
                  cret (if nltb d (dd dist) then DP (Some i) d else dist))
          (enum med) (DP (Some b) doj).

  (** fastermsc.rs:245-296, [do_swap3_obj] *)
  Definition do_swap3_obj_n (med : list nat) (b j : nat) (oreco : nat * Reco Nt)
    : cres (Reco Nt * Lt) :=
    let '(o, reco) := oreco in
    let ne := near3 reco in let se := seco3 reco in let th := third3 reco in
    if o =? j then
      let reco' :=
        if negb (ieqb (di ne) b) then
          mkReco (DP (Some b) nzero) ne (if negb (ieqb (di se) b) then se else th)
        else mkReco (DP (Some b) nzero) se th in
      cret (reco', lzero)
    else
      doj <- cget o j ;;
      let new := DP (Some b) doj in
      reco' <-
        (if ieqb (di ne) b then
           if nltb doj (dd se) then cret (mkReco new se th)
           else if is_marker (di th) || nltb doj (dd th) then cret (mkReco se new th)
           else t <- update_third_nearest_n med (as_usize (di se)) (as_usize (di th)) b o doj ;;
                cret (mkReco se th t)
         else if ieqb (di se) b then
           if nltb doj (dd ne) then cret (mkReco new ne th)
           else if is_marker (di th) || nltb doj (dd th) then cret (mkReco ne new th)
           else t <- update_third_nearest_n med (as_usize (di ne)) (as_usize (di th)) b o doj ;;
                cret (mkReco ne th t)
         else
           if nltb doj (dd ne) then cret (mkReco new ne se)
           else if nltb doj (dd se) then cret (mkReco ne new se)
           else if is_marker (di th) || nltb doj (dd th) then cret (mkReco ne se new)
           else if ieqb (di th) b then
             t <- update_third_nearest_n med (as_usize (di ne)) (as_usize (di se)) b o doj ;;
             cret (mkReco ne se t)
           else cret reco) ;;
      cret (reco', ratio (dd (near3 reco')) (dd (seco3 reco'))).

  (** fastermsc.rs:227-299, [do_swap3] *)
  Definition do_swap3_n (med : list nat) (data : list (Reco Nt)) (b j : nat)
    : cres (list nat * list (Reco Nt) * Lt) :=
    _ <- lift (assertb (b <? length med) P_assert) ;;
    _ <- lift (assertb (j <? mlen M) P_assert) ;;
    med' <- lift (upd med b j) ;;
    rs <- cmapM (do_swap3_obj_n med' b j) (enum data) ;;
    loss <- lift (unwrap (reduce ladd (map snd rs))) ;;
    cret (med', map fst rs, loss).

  (** fastermsc.rs:76-92, [msc_cand] *)
  Definition msc_cand_n (st : mst Nt Lt) (j : nat) : cres (ctl (mst Nt Lt)) :=
    if j =? m_last st then cret (Break st) else
    rj <- lift (idx (m_data st) j) ;;
    mj <- lift (idx (m_med st) (as_usize (di (near3 rj)))) ;;
    if j =? mj then cret (Next st) else
    '(change, b) <- find_best_swap3_n (m_rl st) (m_data st) j ;;
    if lleb change lzero then cret (Next st) else
    '(med', data', loss') <- do_swap3_n (m_med st) (m_data st) b j ;;
    rl' <- lift (update_removal_loss3 data' (m_rl st)) ;;
    cret (Next (mkM med' data' rl' loss' j (S (m_swaps st)) (m_iter st))).

  (** fastermsc.rs:73-96, [msc_iteration] *)
  Definition msc_iteration_n (st : mst Nt Lt) : cres (ctl (mst Nt Lt)) :=
    let swaps_before := m_swaps st in
    let lastloss := m_loss st in
    st' <- cforM msc_cand_n (seq 0 (mlen M))
                (mkM (m_med st) (m_data st) (m_rl st) (m_loss st) (m_last st)
                     (m_swaps st) (S (m_iter st))) ;;
    if (m_swaps st' =? swaps_before) || lleb lastloss (m_loss st')
    then cret (Break st') else cret (Next st').

  (** fastermsc.rs:359-368, [ia2_obj] *)
  Definition ia2_obj_n (m0 m1 i : nat) : cres (nat * (Nt * Nt) * Lt) :=
    d0 <- cget i m0 ;;
    d1 <- cget i m1 ;;
    cret (if nltb d0 d1 then (0, (d0, d1), ratio d0 d1) else (1, (d0, d1), ratio d1 d0)).

  (** fastermsc.rs:345-372, [initial_assignment_k2] *)
  Definition initial_assignment_k2_n (med : list nat) : cres (Lt * list nat * list (Nt * Nt)) :=
    sq <- lift (msquare M) ;;
    _ <- lift (assertb sq P_not_square) ;;
    _ <- lift (assertb (N.of_nat (mlen M) <=? u32_max)%N P_n_too_large) ;;
    _ <- lift (assertb (length med =? 2) P_invalid_k) ;;
    m0 <- lift (idx med 0) ;;
    m1 <- lift (idx med 1) ;;
    rs <- cmapM (ia2_obj_n m0 m1) (seq 0 (mlen M)) ;;
    loss <- lift (unwrap (reduce ladd (map snd rs))) ;;
    cret (loss, map (fun r => fst (fst r)) rs, map (fun r => snd (fst r)) rs).

  (** fastermsc.rs:387-392, [fbs2_step] *)
  Definition fbs2_step_n (j : nat) (pl : Lt * Lt) (od : nat * (Nt * Nt)) : cres (Lt * Lt) :=
    let '(o, (d0, d1)) := od in
    doj <- cget o j ;;
    cret (ladd (fst pl) (if nltb doj d1 then ratio doj d1 else ratio d1 doj),
        ladd (snd pl) (if nltb doj d0 then ratio doj d0 else ratio d0 doj)).

  (** fastermsc.rs:376-395, [find_best_swap_k2] *)
  Definition find_best_swap_k2_n (data : list (Nt * Nt)) (j : nat) : cres (Lt * nat) :=
    pl <- cfoldM (fbs2_step_n j) (enum data) (lzero, lzero) ;;
    '(b, bloss) <- lift (find_min [fst pl; snd pl]) ;;
    cret (bloss, b).

  (** fastermsc.rs:420-435, [do_swap2_obj] *)
  Definition do_swap2_obj_n (b j : nat) (oad : nat * (nat * (Nt * Nt)))
    : cres (nat * (Nt * Nt) * Lt) :=
    let '(o, (a, (d0, d1))) := oad in
    if b =? 0 then
      if o =? j then cret (0, (nzero, d1), lzero) else
      doj <- cget o j ;;
      cret (if nltb doj d1 || (neqb doj d1 && (a =? 0))
          then (0, (doj, d1), ratio doj d1) else (1, (doj, d1), ratio d1 doj))
    else
      if o =? j then cret (1, (d0, nzero), lzero) else
      doj <- cget o j ;;
      cret (if nltb doj d0 || (neqb doj d0 && (a =? 1))
          then (1, (d0, doj), ratio doj d0) else (0, (d0, doj), ratio d0 doj)).

  (** fastermsc.rs:399-460, [do_swap_k2] *)
  Definition do_swap_k2_n (med assi : list nat) (data : list (Nt * Nt)) (b j : nat)
    : cres (list nat * list nat * list (Nt * Nt) * Lt) :=
    _ <- lift (assertb (b <? length med) P_assert) ;;
    _ <- lift (assertb (j <? mlen M) P_assert) ;;
    med' <- lift (upd med b j) ;;
    rs <- cmapM (do_swap2_obj_n b j) (enum (combine assi data)) ;;
    loss <- lift (unwrap (reduce ladd (map snd rs))) ;;
    cret (med', map (fun r => fst (fst r)) rs, map (fun r => snd (fst r)) rs, loss).

  (** fastermsc.rs:319-334, [k2_cand] *)
  Definition k2_cand_n (st : kst Nt Lt) (j : nat) : cres (ctl (kst Nt Lt)) :=
    if j =? k_last st then cret (Break st) else
    aj <- lift (idx (k_assi st) j) ;;
    mj <- lift (idx (k_med st) aj) ;;
    if j =? mj then cret (Next st) else
    '(newloss, b) <- find_best_swap_k2_n (k_data st) j ;;
    if lleb (k_loss st) newloss then cret (Next st) else
    '(med', assi', data', loss') <- do_swap_k2_n (k_med st) (k_assi st) (k_data st) b j ;;
    cret (Next (mkK med' assi' data' loss' j (S (k_swaps st)) (k_iter st))).

  (** fastermsc.rs:316-338, [k2_iteration] *)
  Definition k2_iteration_n (st : kst Nt Lt) : cres (ctl (kst Nt Lt)) :=
    let swaps_before := k_swaps st in
    let lastloss := k_loss st in
    st' <- cforM k2_cand_n (seq 0 (mlen M))
                (mkK (k_med st) (k_assi st) (k_data st) (k_loss st) (k_last st)
                     (k_swaps st) (S (k_iter st))) ;;
    if (k_swaps st' =? swaps_before) || lleb lastloss (k_loss st')
    then cret (Break st') else cret (Next st').

  (** fastermsc.rs:302-341, [fastermsc_k2] *)
  Definition fastermsc_k2_n (med : list nat) (maxiter : nat) : cres (pam_result Lt) :=
    _ <- lift (assertb (length med =? 2) P_assert) ;;
    '(loss, assi, data) <- initial_assignment_k2_n med ;;
    st <- cwhileM maxiter k2_iteration_n (mkK med assi data loss (mlen M) 0 0) ;;
    cret (mkPR (to_silhouette M (k_loss st)) (k_assi st) (k_iter st) (k_swaps st) (k_med st)).

  (** fastermsc.rs:48-100, [fastermsc] *)
  Definition fastermsc_n (med : list nat) (maxiter : nat) : cres (pam_result Lt) :=
    if length med =? 1 then single_medoid_n med else
    if length med =? 2 then fastermsc_k2_n med maxiter else
    '(loss, data) <- initial_assignment3_n med ;;
    rl <- lift (update_removal_loss3 data (repeat lzero (length med))) ;;
    st <- cwhileM maxiter msc_iteration_n (mkM med data rl loss (mlen M) 0 0) ;;
    cret (mkPR (to_silhouette M (m_loss st)) (assignment3_of (m_data st)) (m_iter st) (m_swaps st)
             (m_med st)).

  (** fastmsc.rs:71-80, [fastmsc_cand] *)
  Definition fastmsc_cand_n (med : list nat) (data : list (Reco Nt)) (rl : list Lt)
      (best : Lt * option (nat * nat)) (j : nat) : cres (Lt * option (nat * nat)) :=
    rj <- lift (idx data j) ;;
    mj <- lift (idx med (as_usize (di (near3 rj)))) ;;
    if j =? mj then cret best else
    '(change, b) <- find_best_swap3_n rl data j ;;
    if lleb change (fst best) then cret best else cret (change, Some (b, j)).

  (** fastmsc.rs:81-91, [swap_best3] *)
  Definition swap_best3_n (st : mst Nt Lt) (rl : list Lt) (best : Lt * option (nat * nat)) : cres (ctl (mst Nt Lt)) :=
    if lltb lzero (fst best) then
      match snd best with
      | None => cpanic P_assert
      | Some (b, j) =>
          '(med', data', newloss) <- do_swap3_n (m_med st) (m_data st) b j ;;
          if lleb (m_loss st) newloss then
            cret (Break (mkM med' data' rl (m_loss st) (m_last st) (S (m_swaps st)) (m_iter st)))
          else
            cret (Next (mkM med' data' rl newloss (m_last st) (S (m_swaps st)) (m_iter st)))
      end
    else cret (Break (mkM (m_med st) (m_data st) rl (m_loss st) (m_last st) (m_swaps st) (m_iter st))).

  (** fastmsc.rs:67-92, [fastmsc_iteration] *)
  Definition fastmsc_iteration_n (st0 : mst Nt Lt) : cres (ctl (mst Nt Lt)) :=
    let st := mkM (m_med st0) (m_data st0) (m_rl st0) (m_loss st0) (m_last st0) (m_swaps st0)
                  (S (m_iter st0)) in
    rl <- lift (update_removal_loss3 (m_data st) (m_rl st)) ;;
    best <- cfoldM (fastmsc_cand_n (m_med st) (m_data st) rl) (seq 0 (mlen M)) (lzero, None) ;;
    swap_best3_n st rl best.

  (** fastmsc.rs:116-124, [fastmsc_k2_cand] *)
  Definition fastmsc_k2_cand_n (st : kst Nt Lt) (best : Lt * option (nat * nat)) (j : nat)
    : cres (Lt * option (nat * nat)) :=
    aj <- lift (idx (k_assi st) j) ;;
    mj <- lift (idx (k_med st) aj) ;;
    if j =? mj then cret best else
    '(newloss, b) <- find_best_swap_k2_n (k_data st) j ;;
    cret (match snd best with
        | None => (newloss, Some (b, j))
        | Some _ => if lltb newloss (fst best) then (newloss, Some (b, j)) else best
        end).

  (** fastmsc.rs:113-137, [fastmsc_k2_iteration] *)
  Definition fastmsc_k2_iteration_n (st0 : kst Nt Lt) : cres (ctl (kst Nt Lt)) :=
    let st := mkK (k_med st0) (k_assi st0) (k_data st0) (k_loss st0) (k_last st0) (k_swaps st0)
                  (S (k_iter st0)) in
    best <- cfoldM (fastmsc_k2_cand_n st) (seq 0 (mlen M)) (lzero, None) ;;
    if negb (lltb (fst best) (k_loss st)) then cret (Break st) else
    match snd best with
    | None => cpanic P_assert
    | Some (b, j) =>
        '(med', assi', data', newloss) <- do_swap_k2_n (k_med st) (k_assi st) (k_data st) b j ;;
        if negb (lltb newloss (k_loss st)) then
          cret (Break (mkK med' assi' data' (k_loss st) (k_last st) (S (k_swaps st)) (k_iter st)))
        else
          cret (Next (mkK med' assi' data' newloss (k_last st) (S (k_swaps st)) (k_iter st)))
    end.

  (** fastmsc.rs:99-140, [fastmsc_k2] *)
  Definition fastmsc_k2_n (med : list nat) (maxiter : nat) : cres (pam_result Lt) :=
    _ <- lift (assertb (length med =? 2) P_assert) ;;
    '(loss, assi, data) <- initial_assignment_k2_n med ;;
    st <- cwhileM maxiter fastmsc_k2_iteration_n (mkK med assi data loss 0 0 0) ;;
    cret (mkPR (to_silhouette M (k_loss st)) (k_assi st) (k_iter st) (k_swaps st) (k_med st)).

  (** fastmsc.rs:43-96, [fastmsc] *)
  Definition fastmsc_n (med : list nat) (maxiter : nat) : cres (pam_result Lt) :=
    if length med =? 1 then single_medoid_n med else
    if length med =? 2 then fastmsc_k2_n med maxiter else
    '(loss, data) <- initial_assignment3_n med ;;
    st <- cwhileM maxiter fastmsc_iteration_n (mkM med data (repeat lzero (length med)) loss 0 0 0) ;;
    cret (mkPR (to_silhouette M (m_loss st)) (assignment3_of (m_data st)) (m_iter st) (m_swaps st)
             (m_med st)).


  (** ** M_Pammedsil.v *)
  (** pammedsil.rs:176-207, [pms_step] *)
  Definition pms_step_n (j m : nat) (acc : Lt) (oreco : nat * Reco Nt) : cres Lt :=
    let '(o, reco) := oreco in
    if o =? j then cret acc else
    doj <- cget o j ;;
    let dn := dd (near3 reco) in let ds := dd (seco3 reco) in let dt := dd (third3 reco) in
    cret (if as_usize (di (near3 reco)) =? m then
          if nltb doj ds then ladd acc (lsub (ratio dn ds) (ratio doj ds))
          else if nltb doj dt then ladd acc (lsub (ratio dn ds) (ratio ds doj))
          else ladd acc (lsub (ratio dn ds) (ratio ds dt))
        else if as_usize (di (seco3 reco)) =? m then
          if nltb doj dn then ladd acc (lsub (ratio dn ds) (ratio doj dn))
          else if nltb doj dt then ladd acc (lsub (ratio dn ds) (ratio dn doj))
          else ladd acc (lsub (ratio dn ds) (ratio dn dt))
        else
          if nltb doj dn then ladd acc (lsub (ratio dn ds) (ratio doj dn))
          else if nltb doj ds then ladd acc (lsub (ratio dn ds) (ratio dn doj))
          else acc).

  (** pammedsil.rs:227-254, [pms2_step] *)
  Definition pms2_step_n (j m : nat) (acc : Lt) (oreco : nat * Reco Nt) : cres Lt :=
    let '(o, reco) := oreco in
    if o =? j then cret acc else
    doj <- cget o j ;;
    let dn := dd (near3 reco) in let ds := dd (seco3 reco) in
    cret (if as_usize (di (near3 reco)) =? m then
          if nltb doj ds then ladd acc (lsub (ratio dn ds) (ratio doj ds))
          else ladd acc (lsub (ratio dn ds) (ratio ds doj))
        else if as_usize (di (seco3 reco)) =? m then
          if nltb doj dn then ladd acc (lsub (ratio dn ds) (ratio doj dn))
          else ladd acc (lsub (ratio dn ds) (ratio dn doj))
        else
          if nltb doj dn then ladd acc (lsub (ratio dn ds) (ratio doj dn))
          else if nltb doj ds then ladd acc (lsub (ratio dn ds) (ratio dn doj))
          else acc).

  (** pammedsil.rs:166-213, [find_best_swap_pms] *)
  Definition find_best_swap_pms_n (step : nat -> nat -> Lt -> nat * Reco Nt -> cres Lt)
      (med : list nat) (data : list (Reco Nt)) (j : nat) : cres (Lt * option nat) :=
    recj <- lift (idx data j) ;;
    cfoldM (fun best m =>
             acc <- cfoldM (step j m) (enum data)
                          (ratio (dd (near3 recj)) (dd (seco3 recj))) ;;
             cret (if lltb (fst best) acc then (acc, Some m) else best))
          (seq 0 (length med)) (lzero, None).

  (** pammedsil.rs:133-146, [pms_cand] *)
  Definition pms_cand_n (med : list nat) (data : list (Reco Nt))
      (best : Lt * option (nat * nat)) (j : nat) : cres (Lt * option (nat * nat)) :=
    rj <- lift (idx data j) ;;
    mj <- lift (idx med (as_usize (di (near3 rj)))) ;;
    if j =? mj then cret best else
    '(change, b) <- find_best_swap_pms_n (if length med =? 2 then pms2_step_n else pms_step_n) med data j ;;
    if lleb change (fst best) then cret best
    else cret (change, match b with Some b => Some (b, j) | None => None end).

  (** pammedsil.rs:130-158, [pms_iteration] *)
  Definition pms_iteration_n (st0 : mst Nt Lt) : cres (ctl (mst Nt Lt)) :=
    let st := mkM (m_med st0) (m_data st0) (m_rl st0) (m_loss st0) (m_last st0) (m_swaps st0)
                  (S (m_iter st0)) in
    best <- cfoldM (pms_cand_n (m_med st) (m_data st)) (seq 0 (mlen M)) (lzero, None) ;;
    swap_best3_n st (m_rl st) best.

  (** pammedsil.rs:110-162, [pammedsil_optimize] *)
  Definition pammedsil_optimize_n (med : list nat) (data : list (Reco Nt)) (maxiter : nat) (loss : Lt)
    : cres (pam_result Lt) :=
    if length med =? 1 then single_medoid_n med else
    st <- cwhileM maxiter pms_iteration_n (mkM med data [] loss 0 0 0) ;;
    cret (mkPR (to_silhouette M (m_loss st)) (assignment3_of (m_data st)) (m_iter st) (m_swaps st)
             (m_med st)).

  (** pammedsil.rs:49-61, [pammedsil_swap] *)
  Definition pammedsil_swap_n (med : list nat) (maxiter : nat) : cres (pam_result Lt) :=
    '(loss, data) <- initial_assignment3_n med ;;
    pammedsil_optimize_n med data maxiter loss.
End Cost.
