(** M_Pamsil.v -- model of src/pamsil.rs *)
From Verif Require Import Base Num M_Mat M_Util M_Fasterpam M_Pam M_Alternating M_Silhouette.
Set Implicit Arguments.

Section Pamsil.
  Context {Nt Lt : Type} `{NumN Nt} `{NumL Lt} `{FromN Nt Lt}.
  Variable M : Mat Nt.

  (** Variables changed by the search for the best swap: [med], [assi] and [best]; as in the
      other models [None] stands for the initial [best.1 = k], [best.2 = usize::MAX]. *)
  Record psst := mkPs {
    ps_med : list nat;
    ps_assi : list nat;
    ps_best : Lt * option (nat * nat)
  }.

  (** pamsil.rs:124-135, candidate [j] for position [m] *)
  Definition pamsil_cand (m medm : nat) (st : psst) (j : nat) : res psst :=
    if j =? medm then Ok st else
    aj <- idx (ps_assi st) j ;;
    mj <- idx (ps_med st) aj ;;
    if j =? mj then Ok st else
    med' <- upd (ps_med st) m j ;;
    '(_, assi') <- assign_nearest (Lt := Lt) M med' ;;
    '(siltemp, _) <- silhouette M assi' false ;;
    if lleb siltemp (fst (ps_best st)) then Ok (mkPs med' assi' (ps_best st))
    else Ok (mkPs med' assi' (siltemp, Some (m, j))).

  (** pamsil.rs:122-137, position [m] *)
  Definition pamsil_pos (st : psst) (m : nat) : res psst :=
    medm <- idx (ps_med st) m ;;
    st' <- foldM (pamsil_cand m medm) (seq 0 (mlen M)) st ;;
    med' <- upd (ps_med st') m medm ;;
    Ok (mkPs med' (ps_assi st') (ps_best st')).

  (** Mutable variables of the main loop *)
  Record pslst := mkPsl {
    pl_med : list nat;
    pl_assi : list nat;
    pl_sil : Lt;
    pl_swaps : nat;
    pl_iter : nat
  }.

  (** pamsil.rs:119-144, one iteration.  [med[best.1]] with [best.1 = k] is out of bounds. *)
  Definition pamsil_iteration (st : pslst) : res (ctl pslst) :=
    s <- foldM pamsil_pos (seq 0 (length (pl_med st)))
               (mkPs (pl_med st) (pl_assi st) (lzero, None)) ;;
    if lleb (fst (ps_best s)) (pl_sil st) then
      Ok (Break (mkPsl (ps_med s) (ps_assi s) (pl_sil st) (pl_swaps st) (S (pl_iter st))))
    else
      match snd (ps_best s) with
      | None => Panic P_index
      | Some (b, j) =>
          med' <- upd (ps_med s) b j ;;
          Ok (Next (mkPsl med' (ps_assi s) (fst (ps_best s)) (S (pl_swaps st)) (S (pl_iter st))))
      end.

  (** pamsil.rs:101-147; the final [med] and [assi] are part of the result *)
  Definition pamsil_optimize (med assi : list nat) (maxiter : nat) : res (pam_result Lt) :=
    if length med =? 1 then
      '(med', swapped, loss) <- choose_medoid_within_partition M assi med 0 ;;
      Ok (mkPR loss assi 1 (if swapped then 1 else 0) med')
    else
    '(sil, _) <- silhouette M assi false ;;
    st <- whileM maxiter pamsil_iteration (mkPsl med assi sil 0 0) ;;
    '(_, assi') <- assign_nearest (Lt := Lt) M (pl_med st) ;;
    Ok (mkPR (pl_sil st) assi' (pl_iter st) (pl_swaps st) (pl_med st)).

  (** pamsil.rs:37-52 *)
  Definition pamsil_swap (med : list nat) (maxiter : nat) : res (pam_result Lt) :=
    '(_, assi) <- assign_nearest (Lt := Lt) M med ;;
    pamsil_optimize med assi maxiter.

  (** pamsil.rs:202-212: new distance of object [j] to the nearest medoid.  Simplification: the
      running [loss] of BUILD, which is returned but used by no caller, is left out. *)
  Definition pamsil_upd_obj (bj : nat) (jd : nat * Nt) : res Nt :=
    let '(j, dnear) := jd in
    if j =? bj then Ok nzero
    else dj <- mget M j bj ;; Ok (if nltb dj dnear then dj else dnear).

  (** pamsil.rs:183-214, one further medoid *)
  Definition pamsil_build_step (k : nat) (st : list nat * list Nt) (_ : nat)
    : res (list nat * list Nt) :=
    let '(meds, data) := st in
    best <- build_next (Lt := Lt) M k data (map fst (enum data)) ;;
    _ <- assertb (lleb (fst best) lzero) P_assert ;;
    data' <- mapM (pamsil_upd_obj (snd best)) (enum data) ;;
    Ok (meds ++ [snd best], data').

  (** pamsil.rs:150-216; [assi] is filled with 0 (line 178), which it already was *)
  Definition pamsil_build_initialize (k : nat) : res (list nat) :=
    best <- build_first (Lt := Lt) M k ;;
    data <- mapM (fun j => mget M j (snd best)) (seq 0 (mlen M)) ;;
    '(meds, _) <- foldM (pamsil_build_step k) (seq 1 (k - 1)) ([snd best], data) ;;
    Ok meds.

  (** pamsil.rs:82-98 *)
  Definition pamsil (k : nat) (maxiter : nat) : res (pam_result Lt) :=
    _ <- check_input M k ;;
    meds <- pamsil_build_initialize k ;;
    pamsil_optimize meds (repeat 0 (mlen M)) maxiter.
End Pamsil.
Arguments psst : clear implicits.
Arguments pslst : clear implicits.
