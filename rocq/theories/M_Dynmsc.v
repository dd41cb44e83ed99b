(** M_Dynmsc.v -- model of src/dynmsc.rs *)
From Verif Require Import Base Num M_Mat M_Util M_Fasterpam M_Silhouette M_Msc.
Set Implicit Arguments.

(** [v.remove(i)] for [i < v.len()] *)
Definition remove_nth {A} (l : list A) (i : nat) : list A := firstn i l ++ skipn (S i) l.

Section Dynmsc.
  Context {Nt Lt : Type} `{NumN Nt} `{NumL Lt} `{FromN Nt Lt}.
  Variable M : Mat Nt.

  (** dynmsc.rs:155-178 *)
  Definition update_third_nearest_without_new (med : list nat) (n s b o : nat) : res (dpair Nt) :=
    foldM (fun dist '(i, mi) =>
             if (i =? n) || (i =? s) then Ok dist
             else d <- mget M o mi ;;
                  Ok (if ieqb (di dist) b || nltb d (dd dist) then DP (Some i) d else dist))
          (enum med) (DP (Some b) nzero).

  (** [if x.i == l as u32 { x.i = b as u32 }] *)
  Definition renumber (l b : nat) (x : dpair Nt) : dpair Nt :=
    if ieqb (di x) l then DP (Some b) (dd x) else x.

  (** dynmsc.rs:199-242, the closure for object [o]; [med] is the shortened medoid list and [l]
      the former number of its moved element *)
  Definition remove_med_obj (med : list nat) (l b : nat) (oreco : nat * Reco Nt)
    : res (Reco Nt * Lt) :=
    let '(o, reco) := oreco in
    let ne := near3 reco in let se := seco3 reco in let th := third3 reco in
    reco' <-
      (if ieqb (di ne) b then
         let ne' := renumber l b se in let se' := renumber l b th in
         t <- update_third_nearest_without_new med (as_usize (di ne')) (as_usize (di se')) b o ;;
         Ok (mkReco ne' se' t)
       else if ieqb (di se) b then
         let ne' := renumber l b ne in let se' := renumber l b th in
         t <- update_third_nearest_without_new med (as_usize (di ne')) (as_usize (di se')) b o ;;
         Ok (mkReco ne' se' t)
       else if ieqb (di th) b then
         let ne' := renumber l b ne in let se' := renumber l b se in
         t <- update_third_nearest_without_new med (as_usize (di ne')) (as_usize (di se')) b o ;;
         Ok (mkReco ne' se' t)
       else Ok (mkReco (renumber l b ne) (renumber l b se) (renumber l b th))) ;;
    Ok (reco', ratio (dd (near3 reco')) (dd (seco3 reco'))).

  (** dynmsc.rs:182-245; returns (med, data, loss).  The subtraction at line 193 cannot overflow
      for the calls made, as [k >= 3]. *)
  Definition remove_med (med : list nat) (data : list (Reco Nt)) (b : nat)
    : res (list nat * list (Reco Nt) * Lt) :=
    let l := length med - 1 in
    _ <- assertb (b <? length med) P_assert ;;
    ml <- idx med l ;;
    med1 <- upd med b ml ;;
    let med' := firstn l med1 in
    rs <- mapM (remove_med_obj med' l b) (enum data) ;;
    loss <- unwrap (reduce ladd (map snd rs)) ;;
    Ok (med', map fst rs, loss).

  (** dynmsc.rs:115-120: first minimum of the removal loss; [None] is the initial [usize::MAX] *)
  Definition min_removal (rl : list Lt) : Lt * option nat :=
    fold_left (fun r '(o, v) => if (o =? 0) || lltb v (fst r) then (v, Some o) else r)
              (enum rl) (lzero, None).

  (** Mutable variables of [dynmsc]; [k] is always the length of [y_med]. *)
  Record dst := mkD {
    y_med : list nat;
    y_data : list (Reco Nt);
    y_rl : list Lt;
    y_loss : Lt;
    y_losses : list Lt;      (* return_loss *)
    y_best : Lt;             (* best_loss *)
    y_assi : list nat;       (* return_assi *)
    y_meds : list nat;       (* return_meds *)
    y_iter : nat;            (* return_iter *)
    y_swaps : nat            (* return_swaps *)
  }.

  (** dynmsc.rs:86-134, one round.  [remove_med] with the initial [r.1 = usize::MAX] would fail its
      assertion. *)
  Definition dyn_round (minimum_k maxiter : nat) (st : dst) : res (ctl dst) :=
    let k := length (y_med st) in
    if negb ((3 <=? k) && (minimum_k <=? k)) then Ok (Break st) else
    rl <- update_removal_loss3 (y_data st) (y_rl st) ;;
    s <- whileM maxiter (msc_iteration M) (mkM (y_med st) (y_data st) rl (y_loss st) (mlen M) 0 0) ;;
    let r := min_removal (m_rl s) in
    let loss := to_silhouette M (m_loss s) in
    losses <- upd (y_losses st) (k - minimum_k) loss ;;
    let better := lltb (y_best st) loss in
    match snd r with
    | None => Panic P_assert
    | Some b =>
        '(med', data', loss') <- remove_med (m_med s) (m_data s) b ;;
        Ok (Next (mkD med' data' (remove_nth (m_rl s) b) loss' losses
                      (if better then loss else y_best st)
                      (if better then assignment3_of (m_data s) else y_assi st)
                      (if better then m_med s else y_meds st)
                      (y_iter st + m_iter s) (y_swaps st + m_swaps s)))
    end.

  (** Result [(best_loss, assi, iter, n_swaps, meds, losses)] *)
  Record dyn_result := mkDR { d_res : pam_result Lt; d_losses : list Lt }.

  (** dynmsc.rs:53-150.  The loop of line 86 runs at most [k] times since every round removes one
      medoid; [whileM] is given [k] rounds (lemma [dyn_fuel] shows that the condition is false
      afterwards).  [vec![0, n]] at line 80 is the two-element vector [[0; n]]. *)
  Definition dynmsc (med : list nat) (mink maxiter : nat) : res dyn_result :=
    let k := length med in
    let minimum_k := Nat.min (Nat.max mink 1) k in
    if k =? 1 then
      r <- single_medoid M med ;;
      Ok (mkDR r [r_loss r])
    else
    '(loss, data) <- initial_assignment3 M med ;;
    st <- whileM k (dyn_round minimum_k maxiter)
                 (mkD med data (repeat lzero k) loss (repeat lzero (k - minimum_k + 1)) lzero
                      [0; mlen M] med 0 0) ;;
    st <- (if minimum_k <=? 2 then
             r <- fastermsc_k2 M (y_med st) maxiter ;;
             losses <- upd (y_losses st) (2 - minimum_k) (r_loss r) ;;
             let better := lltb (y_best st) (r_loss r) in
             Ok (mkD (r_med r) (y_data st) (y_rl st) (y_loss st) losses
                     (if better then r_loss r else y_best st)
                     (if better then r_assi r else y_assi st)
                     (if better then r_med r else y_meds st)
                     (y_iter st + r_iter r) (y_swaps st + r_swaps r))
           else Ok st) ;;
    losses <- (if minimum_k <=? 1 then upd (y_losses st) 0 lzero else Ok (y_losses st)) ;;
    Ok (mkDR (mkPR (y_best st) (y_assi st) (y_iter st) (y_swaps st) (y_meds st)) losses).
End Dynmsc.
Arguments dst : clear implicits.
Arguments dyn_result : clear implicits.
