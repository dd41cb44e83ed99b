(** M_Alternating.v -- model of src/alternating.rs *)
From Verif Require Import Base Num M_Mat M_Util M_Fasterpam.
Set Implicit Arguments.

Section Alternating.
  Context {Nt Lt : Type} `{NumN Nt} `{NumL Lt} `{FromN Nt Lt}.
  Variable M : Mat Nt.

  (** alternating.rs:82-92, the closure for object [i] *)
  Definition an_obj (med : list nat) (firstcenter : nat) (i : nat) : res (nat * Lt) :=
    d0 <- mget M i firstcenter ;;
    best <- foldM (fun best '(m, mm) =>
                     dm <- mget M i mm ;;
                     Ok (if nltb dm (snd best) || (i =? mm) then (m, dm) else best))
                  (skipn 1 (enum med)) (0, d0) ;;
    Ok (fst best, lfrom (snd best)).

  (** alternating.rs:66-95; returns (loss, new contents of [data]).  Simplification: [data] has
      length [n] (asserted in debug builds, line 78, and true of all callers), so the old contents
      are irrelevant. *)
  Definition assign_nearest (med : list nat) : res (Lt * list nat) :=
    _ <- check_input M (length med) ;;
    firstcenter <- idx med 0 ;;
    rs <- mapM (an_obj med firstcenter) (seq 0 (mlen M)) ;;
    Ok (match reduce ladd (map snd rs) with Some l => l | None => lzero end, map fst rs).

  (** Mutable variables of the main loop *)
  Record ast := mkA { al_med : list nat; al_assi : list nat; al_loss : Lt; al_iter : nat }.

  (** alternating.rs:51-54 *)
  Definition alt_medoids (assi : list nat) (med : list nat) : res (list nat * bool) :=
    foldM (fun '(med, changed) i =>
             '(med', c, _) <- choose_medoid_within_partition (Lt := Lt) M assi med i ;;
             Ok (med', changed || c))
          (seq 0 (length med)) (med, false).

  (** alternating.rs:49-59, one iteration *)
  Definition alt_iteration (st : ast) : res (ctl ast) :=
    '(med', changed) <- alt_medoids (al_assi st) (al_med st) ;;
    if negb changed then Ok (Break (mkA med' (al_assi st) (al_loss st) (S (al_iter st)))) else
    '(loss', assi') <- assign_nearest med' ;;
    Ok (Next (mkA med' assi' loss' (S (al_iter st)))).

  (** alternating.rs:40-61; the number of swaps, which is not returned, is set to 0 *)
  Definition alternating (med : list nat) (maxiter : nat) : res (pam_result Lt) :=
    '(loss, assi) <- assign_nearest med ;;
    st <- whileM maxiter alt_iteration (mkA med assi loss 0) ;;
    Ok (mkPR (al_loss st) (al_assi st) (al_iter st) 0 (al_med st)).
End Alternating.
Arguments ast : clear implicits.
