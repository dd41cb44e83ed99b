(** M_Debug.v -- debug builds with the cargo feature "assertions" (Cargo.toml:45): the calls of
    [debug_assert_assignment] and [debug_assert_assignment_th] (M_Util.v), which are empty functions
    otherwise.  Each definition repeats the one without assertions, plus the call at the line given. *)
From Verif Require Import Base Num M_Mat M_Util M_Fasterpam M_Pam M_ParFasterpam M_Silhouette M_Msc
  M_Pammedsil M_Dynmsc.
Set Implicit Arguments.

Section Debug.
  Context {Nt Lt : Type} `{NumN Nt} `{NumL Lt} `{FromN Nt Lt}.
  Variable M : Mat Nt.
  (** [a <= b] on [N] *)
  Variable nleb : Nt -> Nt -> bool.

  (** fasterpam.rs:49-86 and 132-171 with the calls at lines 56 and 139 *)
  Definition fasterpam_order_dbg (order : list nat) (med : list nat) (maxiter : nat)
    : res (pam_result Lt) :=
    if length med =? 1 then single_medoid M med else
    '(loss, data) <- initial_assignment M med ;;
    _ <- debug_assert_assignment M nleb med data ;;
    rl <- update_removal_loss data (repeat lzero (length med)) ;;
    st <- whileM maxiter (fp_iteration M order) (mkFp med data rl loss (mlen M) 0 0) ;;
    Ok (mkPR (fp_loss st) (assignment_of (fp_data st)) (fp_iter st) (fp_swaps st) (fp_med st)).

  Definition fasterpam_dbg (med : list nat) (maxiter : nat) : res (pam_result Lt) :=
    fasterpam_order_dbg (seq 0 (mlen M)) med maxiter.

  (** fastpam1.rs:42-90 with the call at line 59 *)
  Definition fastpam1_dbg (med : list nat) (maxiter : nat) : res (pam_result Lt) :=
    if length med =? 1 then single_medoid M med else
    '(loss, data) <- initial_assignment M med ;;
    _ <- debug_assert_assignment M nleb med data ;;
    st <- whileM maxiter (fastpam1_iteration M) (mkP med data (repeat lzero (length med)) loss 0 0) ;;
    Ok (mkPR (p_loss st) (assignment_of (p_data st)) (p_iter st) (p_swaps st) (p_med st)).

  (** pam.rs:150-197 with the call at line 168 *)
  Definition pam_optimize_dbg (med : list nat) (data : list (Rec Nt)) (maxiter : nat) (loss : Lt)
    : res (pam_result Lt) :=
    if length med =? 1 then single_medoid M med else
    _ <- debug_assert_assignment M nleb med data ;;
    st <- whileM maxiter (pam_iteration M) (mkP med data [] loss 0 0) ;;
    Ok (mkPR (p_loss st) (assignment_of (p_data st)) (p_iter st) (p_swaps st) (p_med st)).

  (** pam.rs:40-52 and 131-147 *)
  Definition pam_swap_dbg (med : list nat) (maxiter : nat) : res (pam_result Lt) :=
    '(loss, data) <- initial_assignment M med ;;
    pam_optimize_dbg med data maxiter loss.
  Definition pam_dbg (k : nat) (maxiter : nat) : res (pam_result Lt) :=
    _ <- check_input M k ;;
    st <- pam_build_initialize M k ;;
    pam_optimize_dbg (b_meds st) (b_data st) maxiter (b_loss st).

  (** par_fasterpam.rs:43-93 with the call at line 61 *)
  Definition par_fasterpam_dbg (orc : oracle) (order : list nat) (med : list nat) (maxiter : nat)
    : res (pam_result Lt) :=
    if length med =? 1 then single_medoid M med else
    '(loss, data) <- par_initial_assignment M (o_init orc) med ;;
    _ <- debug_assert_assignment M nleb med data ;;
    rl <- update_removal_loss data (repeat lzero (length med)) ;;
    st <- whileM maxiter (par_iteration M orc order) (mkFp med data rl loss (mlen M) 0 0) ;;
    Ok (mkPR (fp_loss st) (assignment_of (fp_data st)) (fp_iter st) (fp_swaps st) (fp_med st)).

  (** fastermsc.rs:48-100 with the call at line 68 *)
  Definition fastermsc_dbg (med : list nat) (maxiter : nat) : res (pam_result Lt) :=
    if length med =? 1 then single_medoid M med else
    if length med =? 2 then fastermsc_k2 M med maxiter else
    '(loss, data) <- initial_assignment3 M med ;;
    _ <- debug_assert_assignment_th M nleb med data ;;
    rl <- update_removal_loss3 data (repeat lzero (length med)) ;;
    st <- whileM maxiter (msc_iteration M) (mkM med data rl loss (mlen M) 0 0) ;;
    Ok (mkPR (to_silhouette M (m_loss st)) (assignment3_of (m_data st)) (m_iter st) (m_swaps st)
             (m_med st)).

  (** fastmsc.rs:43-96 with the call at line 63 *)
  Definition fastmsc_dbg (med : list nat) (maxiter : nat) : res (pam_result Lt) :=
    if length med =? 1 then single_medoid M med else
    if length med =? 2 then fastmsc_k2 M med maxiter else
    '(loss, data) <- initial_assignment3 M med ;;
    _ <- debug_assert_assignment_th M nleb med data ;;
    st <- whileM maxiter (fastmsc_iteration M) (mkM med data (repeat lzero (length med)) loss 0 0 0) ;;
    Ok (mkPR (to_silhouette M (m_loss st)) (assignment3_of (m_data st)) (m_iter st) (m_swaps st)
             (m_med st)).

  (** pammedsil.rs:110-162 with the call at line 128 *)
  Definition pammedsil_optimize_dbg (med : list nat) (data : list (Reco Nt)) (maxiter : nat) (loss : Lt)
    : res (pam_result Lt) :=
    if length med =? 1 then single_medoid M med else
    _ <- debug_assert_assignment_th M nleb med data ;;
    st <- whileM maxiter (pms_iteration M) (mkM med data [] loss 0 0 0) ;;
    Ok (mkPR (to_silhouette M (m_loss st)) (assignment3_of (m_data st)) (m_iter st) (m_swaps st)
             (m_med st)).

  (** pammedsil.rs:49-61 and 91-107 *)
  Definition pammedsil_swap_dbg (med : list nat) (maxiter : nat) : res (pam_result Lt) :=
    '(loss, data) <- initial_assignment3 M med ;;
    pammedsil_optimize_dbg med data maxiter loss.
  Definition pammedsil_dbg (k : nat) (maxiter : nat) : res (pam_result Lt) :=
    _ <- check_input M k ;;
    st <- pammedsil_build_initialize M k ;;
    pammedsil_optimize_dbg (b3_meds st) (b3_data st) maxiter (b3_loss st).

  (** dynmsc.rs:53-150 with the call at line 76 *)
  Definition dynmsc_dbg (med : list nat) (mink maxiter : nat) : res (dyn_result Lt) :=
    let k := length med in
    let minimum_k := Nat.min (Nat.max mink 1) k in
    if k =? 1 then
      r <- single_medoid M med ;;
      Ok (mkDR r [r_loss r])
    else
    '(loss, data) <- initial_assignment3 M med ;;
    _ <- debug_assert_assignment_th M nleb med data ;;
    st <- whileM k (dyn_round M minimum_k maxiter)
                 (mkD med data (repeat lzero k) loss (repeat lzero (k - minimum_k + 1)) lzero
                      [0; mlen M] med 0 0) ;;
    st <- (if minimum_k <=? 2 then
             r <- fastermsc_k2 M (y_med st) maxiter ;;
             losses <- upd (y_losses st) (2 - minimum_k) (r_loss r) ;;
             let better := lltb (y_best st) (r_loss r) in
             Ok (mkD (r_med r) (y_data st) (y_rl st) (y_loss st) losses
                     (if better then r_loss r else y_best st)
                     (if better then r_assi r else y_assi st)
                     (if better then r_med r else y_meds st)
                     (y_iter st + r_iter r) (y_swaps st + r_swaps r))
           else Ok st) ;;
    losses <- (if minimum_k <=? 1 then upd (y_losses st) 0 lzero else Ok (y_losses st)) ;;
    Ok (mkDR (mkPR (y_best st) (y_assi st) (y_iter st) (y_swaps st) (y_meds st)) losses).
End Debug.
