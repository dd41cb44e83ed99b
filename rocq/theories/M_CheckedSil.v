(** M_CheckedSil.v -- the silhouettes and PAMSIL with arithmetic which may panic.

    The functions below are those of M_Silhouette.v and M_Pamsil.v with every [+], [-] and [/] on losses, and every
    increment of a [u32] counter, replaced by an operation which may panic; the citations there apply.  Functions without
    such an operation are shared.  [P_overflow] stands for every arithmetic panic: besides overflows (in builds with
    overflow checks) integer divisions by zero, and of the smallest number by -1, which panic in every build. *)
From Verif Require Import Base Num M_Mat M_Util M_Fasterpam M_Pam M_Alternating M_Silhouette M_Pamsil M_Checked.
Set Implicit Arguments.

(** the operations which may panic *)
Record sarith (Lt : Type) := mkSarith {
  loss_arith : arith Lt;
  cdiv : Lt -> Lt -> res Lt;    (* a / b *)
  cinc : nat -> res nat         (* c += 1, of type u32 *)
}.

Section CheckedSil.
  Context {Nt Lt : Type} `{HN : NumN Nt} `{HL : NumL Lt} `{HF : FromN Nt Lt}.
  Variable S : sarith Lt.
  Variable M : Mat Nt.
  Local Notation A := (loss_arith S).

  (** silhouette.rs:180-189 *)
  Definition checked_div_c (x y : Lt) : res Lt :=
    if lltb lzero y then cdiv S x y else Ok lzero.

  (** silhouette.rs:61-69 (= par_silhouette.rs:67-75) *)
  Definition sil_buf_c (assi : list nat) (i : nat) : res (list (nat * Lt)) :=
    foldM (fun buf '(j, aj) =>
             let buf := grow buf aj in
             if negb (i =? j) then
               p <- idx buf aj ;;
               c <- cinc S (fst p) ;;
               d <- mget M i j ;;
               x <- cadd A (snd p) (lfrom d) ;;
               upd buf aj (c, x)
             else Ok buf)
          (enum assi) [].

  (** [checked_div(p.1.clone(), p.0.into())] *)
  Definition buf_mean_c (p : nat * Lt) : res Lt := checked_div_c (snd p) (lfrom_u32 (N.of_nat (fst p))).

  (** silhouette.rs:73-86 (= par_silhouette.rs:76-89).  Simplification: all means are computed before the first
      comparison, which does not panic. *)
  Definition sil_of_buf_c (buf : list (nat * Lt)) (ai : nat) : res Lt :=
    p <- idx buf ai ;;
    if 0 <? fst p then
      a <- buf_mean_c p ;;
      tmp <- mapM (fun '(_, p) => buf_mean_c p) (filter (fun '(i, _) => negb (i =? ai)) (enum buf)) ;;
      let b := match tmp with
               | [] => lzero
               | t :: ts => fold_left (fun x y => if lltb y x then y else x) ts t
               end in
      x <- csub A b a ;;
      checked_div_c x (if lltb b a then a else b)
    else Ok lzero.

  (** silhouette.rs:59-91 *)
  Definition sil_step_c (samples : bool) (assi : list nat) (st : slst Lt) (iai : nat * nat) : res (ctl (slst Lt)) :=
    let '(i, ai) := iai in
    buf <- sil_buf_c assi i ;;
    if length buf =? 1 then Ok (Break (mkSl true (sl_sum st) (sl_vec st))) else
    s <- sil_of_buf_c buf ai ;;
    vec <- (if samples then upd (sl_vec st) i s else Ok (sl_vec st)) ;;
    sum <- cadd A (sl_sum st) s ;;
    Ok (Next (mkSl false sum vec)).

  (** silhouette.rs:41-96 *)
  Definition silhouette_c (assi : list nat) (samples : bool) : res (Lt * list Lt) :=
    sq <- msquare M ;;
    _ <- assertb sq P_not_square ;;
    st <- forM (sil_step_c samples assi) (enum assi)
               (mkSl false lzero (repeat lzero (if samples then length assi else 0))) ;;
    if sl_done st then Ok (lzero, sl_vec st) else
    _ <- assertb (negb samples || (length (sl_vec st) =? length assi)) P_assert ;;
    v <- cdiv S (sl_sum st) (lfrom_u32 (as_u32 (length assi))) ;;
    Ok (v, sl_vec st).

  (** par_silhouette.rs:44-95 *)
  Definition par_silhouette_c (assi : list nat) : res Lt :=
    sq <- msquare M ;;
    _ <- assertb sq P_not_square ;;
    ss <- mapM (fun '(i, ai) => buf <- sil_buf_c assi i ;; sil_of_buf_c buf ai) (enum assi) ;;
    sum <- foldM (cadd A) ss lzero ;;
    cdiv S sum (lfrom_u32 (as_u32 (length assi))).

  (** silhouette.rs:157-174 *)
  Definition ms_step_c (meds : list nat) (samples : bool) (st : Lt * list Lt) (i : nat) : res (Lt * list Lt) :=
    let '(loss, sil) := st in
    best <- ms_best M meds i ;;
    if negb (nis_zero (fst best)) then
      s <- cdiv S (lfrom (fst best)) (lfrom (snd best)) ;;
      sil' <- (if samples then x <- csub A lone s ;; upd sil i x else Ok sil) ;;
      loss' <- cadd A loss s ;;
      Ok (loss', sil')
    else Ok (loss, sil).

  (** silhouette.rs:135-177 *)
  Definition medoid_silhouette_c (meds : list nat) (samples : bool) : res (Lt * list Lt) :=
    sq <- msquare M ;;
    _ <- assertb sq P_not_square ;;
    _ <- assertb (N.of_nat (mlen M) <=? u32_max)%N P_n_too_large ;;
    let sil := repeat lone (if samples then mlen M else 0) in
    if length meds =? 1 then Ok (lone, sil) else
    _ <- assertb (length meds <=? mlen M) P_k_gt_n ;;
    '(loss, sil) <- foldM (ms_step_c meds samples) (seq 0 (mlen M)) (lzero, sil) ;;
    x <- cdiv S loss (lfrom_u32 (as_u32 (mlen M))) ;;
    y <- csub A lone x ;;
    Ok (y, sil).

  (** pamsil.rs:124-135 *)
  Definition pamsil_cand_c (m medm : nat) (st : psst Lt) (j : nat) : res (psst Lt) :=
    if j =? medm then Ok st else
    aj <- idx (ps_assi st) j ;;
    mj <- idx (ps_med st) aj ;;
    if j =? mj then Ok st else
    med' <- upd (ps_med st) m j ;;
    '(_, assi') <- assign_nearest_c A M med' ;;
    '(siltemp, _) <- silhouette_c assi' false ;;
    if lleb siltemp (fst (ps_best st)) then Ok (mkPs med' assi' (ps_best st))
    else Ok (mkPs med' assi' (siltemp, Some (m, j))).

  (** pamsil.rs:122-137 *)
  Definition pamsil_pos_c (st : psst Lt) (m : nat) : res (psst Lt) :=
    medm <- idx (ps_med st) m ;;
    st' <- foldM (pamsil_cand_c m medm) (seq 0 (mlen M)) st ;;
    med' <- upd (ps_med st') m medm ;;
    Ok (mkPs med' (ps_assi st') (ps_best st')).

  (** pamsil.rs:119-144 *)
  Definition pamsil_iteration_c (st : pslst Lt) : res (ctl (pslst Lt)) :=
    s <- foldM pamsil_pos_c (seq 0 (length (pl_med st)))
               (mkPs (pl_med st) (pl_assi st) (lzero, None)) ;;
    if lleb (fst (ps_best s)) (pl_sil st) then
      Ok (Break (mkPsl (ps_med s) (ps_assi s) (pl_sil st) (pl_swaps st) (1 + pl_iter st)))
    else
      match snd (ps_best s) with
      | None => Panic P_index
      | Some (b, j) =>
          med' <- upd (ps_med s) b j ;;
          Ok (Next (mkPsl med' (ps_assi s) (fst (ps_best s)) (1 + pl_swaps st) (1 + pl_iter st)))
      end.

  (** pamsil.rs:101-147 *)
  Definition pamsil_optimize_c (med assi : list nat) (maxiter : nat) : res (pam_result Lt) :=
    if length med =? 1 then
      '(med', swapped, loss) <- choose_c A M assi med 0 ;;
      Ok (mkPR loss assi 1 (if swapped then 1 else 0) med')
    else
    '(sil, _) <- silhouette_c assi false ;;
    st <- whileM maxiter pamsil_iteration_c (mkPsl med assi sil 0 0) ;;
    '(_, assi') <- assign_nearest_c A M (pl_med st) ;;
    Ok (mkPR (pl_sil st) assi' (pl_iter st) (pl_swaps st) (pl_med st)).

  (** pamsil.rs:37-52 *)
  Definition pamsil_swap_c (med : list nat) (maxiter : nat) : res (pam_result Lt) :=
    '(_, assi) <- assign_nearest_c A M med ;;
    pamsil_optimize_c med assi maxiter.

  (** pamsil.rs:202-212: the running [loss] of BUILD, which no caller uses, but which may overflow *)
  Definition pamsil_build_loss_c (b : nat) (data : list Nt) : res Lt :=
    foldM (fun s '(j, d) => if j =? b then Ok s else cadd A s (lfrom d)) (enum data) lzero.

  (** pamsil.rs:183-214.  Simplification: the additions to [loss] are made after the updates, which only affects
      which of several panics comes first. *)
  Definition pamsil_build_step_c (k : nat) (st : list nat * list Nt) (_ : nat) : res (list nat * list Nt) :=
    let '(meds, data) := st in
    best <- build_next_c A M k data (map fst (enum data)) ;;
    _ <- assertb (lleb (fst best) lzero) P_assert ;;
    data' <- mapM (pamsil_upd_obj M (snd best)) (enum data) ;;
    _ <- pamsil_build_loss_c (snd best) data' ;;
    Ok (meds ++ [snd best], data').

  (** pamsil.rs:150-216 *)
  Definition pamsil_build_initialize_c (k : nat) : res (list nat) :=
    best <- build_first_c A M k ;;
    data <- mapM (fun j => mget M j (snd best)) (seq 0 (mlen M)) ;;
    '(meds, _) <- foldM (pamsil_build_step_c k) (seq 1 (k - 1)) ([snd best], data) ;;
    Ok meds.

  (** pamsil.rs:82-98 *)
  Definition pamsil_c (k : nat) (maxiter : nat) : res (pam_result Lt) :=
    _ <- check_input M k ;;
    meds <- pamsil_build_initialize_c k ;;
    pamsil_optimize_c meds (repeat 0 (mlen M)) maxiter.
End CheckedSil.
