(** M_Silhouette.v -- model of src/silhouette.rs and src/par_silhouette.rs *)
From Verif Require Import Base Num M_Mat M_Util.
Set Implicit Arguments.

(** [x as u32] on a [usize] *)
Definition as_u32 (n : nat) : N := (N.of_nat n mod 4294967296)%N.

Section Silhouette.
  Context {Nt Lt : Type} `{NumN Nt} `{NumL Lt} `{FromN Nt Lt}.
  Variable M : Mat Nt.

  (** silhouette.rs:180-189 *)
  Definition checked_div (x y : Lt) : Lt :=
    if lltb lzero y then ldiv x y else lzero.

  (** silhouette.rs:62-64 (= par_silhouette.rs:68-70): [while aj >= buf.len() { buf.push(..) }] *)
  Definition grow (buf : list (nat * Lt)) (aj : nat) : list (nat * Lt) :=
    buf ++ repeat (0, lzero) (S aj - length buf).

  (** silhouette.rs:61-69 (= par_silhouette.rs:67-75): per cluster the number of objects other
      than [i] and their summed distances.  Simplification: the [u32] counters do not wrap. *)
  Definition sil_buf (assi : list nat) (i : nat) : res (list (nat * Lt)) :=
    foldM (fun buf '(j, aj) =>
             let buf := grow buf aj in
             if negb (i =? j) then
               p <- idx buf aj ;;
               d <- mget M i j ;;
               upd buf aj (S (fst p), ladd (snd p) (lfrom d))
             else Ok buf)
          (enum assi) [].

  (** [checked_div(p.1.clone(), p.0.into())] *)
  Definition buf_mean (p : nat * Lt) : Lt := checked_div (snd p) (lfrom_u32 (N.of_nat (fst p))).

  (** silhouette.rs:73-86 (= par_silhouette.rs:76-89): the silhouette of an object of cluster
      [ai] *)
  Definition sil_of_buf (buf : list (nat * Lt)) (ai : nat) : res Lt :=
    p <- idx buf ai ;;
    if 0 <? fst p then
      let a := buf_mean p in
      let tmp := map (fun '(_, p) => buf_mean p)
                     (filter (fun '(i, _) => negb (i =? ai)) (enum buf)) in
      let b := match tmp with
               | [] => lzero
               | t :: ts => fold_left (fun x y => if lltb y x then y else x) ts t
               end in
      Ok (checked_div (lsub b a) (if lltb b a then a else b))
    else Ok lzero.

  (** Mutable variables of the main loop; [sl_done] records the early return at line 71 *)
  Record slst := mkSl { sl_done : bool; sl_sum : Lt; sl_vec : list Lt }.

  (** silhouette.rs:59-91, loop body *)
  Definition sil_step (samples : bool) (assi : list nat) (st : slst) (iai : nat * nat)
    : res (ctl slst) :=
    let '(i, ai) := iai in
    buf <- sil_buf assi i ;;
    if length buf =? 1 then Ok (Break (mkSl true (sl_sum st) (sl_vec st))) else
    s <- sil_of_buf buf ai ;;
    vec <- (if samples then upd (sl_vec st) i s else Ok (sl_vec st)) ;;
    Ok (Next (mkSl false (ladd (sl_sum st) s) vec)).

  (** silhouette.rs:41-96 *)
  Definition silhouette (assi : list nat) (samples : bool) : res (Lt * list Lt) :=
    sq <- msquare M ;;
    _ <- assertb sq P_not_square ;;
    st <- forM (sil_step samples assi) (enum assi)
               (mkSl false lzero (repeat lzero (if samples then length assi else 0))) ;;
    if sl_done st then Ok (lzero, sl_vec st) else
    _ <- assertb (negb samples || (length (sl_vec st) =? length assi)) P_assert ;;
    Ok (ldiv (sl_sum st) (lfrom_u32 (as_u32 (length assi))), sl_vec st).

  (** par_silhouette.rs:44-95: the per-object values are collected in order and then summed up
      sequentially, so that the parallel execution does not influence the result. *)
  Definition par_silhouette (assi : list nat) : res Lt :=
    sq <- msquare M ;;
    _ <- assertb sq P_not_square ;;
    ss <- mapM (fun '(i, ai) => buf <- sil_buf assi i ;; sil_of_buf buf ai) (enum assi) ;;
    Ok (ldiv (fold_left ladd ss lzero) (lfrom_u32 (as_u32 (length assi)))).

  (** silhouette.rs:158-168: the two smallest distances of object [i] to the medoids *)
  Definition ms_best (meds : list nat) (i : nat) : res (Nt * Nt) :=
    m0 <- idx meds 0 ;; d1 <- mget M i m0 ;;
    m1 <- idx meds 1 ;; d2 <- mget M i m1 ;;
    foldM (fun best m =>
             d <- mget M i m ;;
             Ok (if nltb d (fst best) then (d, fst best)
                 else if nltb d (snd best) then (fst best, d) else best))
          (skipn 2 meds) (if nltb d1 d2 then (d1, d2) else (d2, d1)).

  (** silhouette.rs:157-174, loop body *)
  Definition ms_step (meds : list nat) (samples : bool) (st : Lt * list Lt) (i : nat)
    : res (Lt * list Lt) :=
    let '(loss, sil) := st in
    best <- ms_best meds i ;;
    if negb (nis_zero (fst best)) then
      let s := ldiv (lfrom (fst best)) (lfrom (snd best)) in
      sil' <- (if samples then upd sil i (lsub lone s) else Ok sil) ;;
      Ok (ladd loss s, sil')
    else Ok (loss, sil).

  (** silhouette.rs:135-177 *)
  Definition medoid_silhouette (meds : list nat) (samples : bool) : res (Lt * list Lt) :=
    sq <- msquare M ;;
    _ <- assertb sq P_not_square ;;
    _ <- assertb (N.of_nat (mlen M) <=? u32_max)%N P_n_too_large ;;
    let sil := repeat lone (if samples then mlen M else 0) in
    if length meds =? 1 then Ok (lone, sil) else
    _ <- assertb (length meds <=? mlen M) P_k_gt_n ;;
    '(loss, sil) <- foldM (ms_step meds samples) (seq 0 (mlen M)) (lzero, sil) ;;
    Ok (lsub lone (ldiv loss (lfrom_u32 (as_u32 (mlen M)))), sil).
End Silhouette.
Arguments slst : clear implicits.
