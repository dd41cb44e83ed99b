(** P_ParFloat.v -- property C62: par_fasterpam in binary64, for every scheduling: how good the medoids
    are and how long it runs.  Every theorem is followed by a concrete input which meets its
    hypotheses. *)
From Coq Require Import ZArith QArith Qabs Lqa Lia Permutation.
From Coq.Floats Require Import SpecFloat.
From Verif Require Import Base Num M_Mat M_Util M_Fasterpam M_Pam M_ParFasterpam Inst Hoare Spec SpecFacts Laws FloatFacts FloatRound
  PamShape PamFacts ParFacts FloatMain FloatSil FloatLoss FloatFmt FloatSwap FloatPar FloatQuality Approx Term TermFloat Ex P_Fasterpam P_Pam P_Float
  P_Bounded P_Rounding P_Term P_FloatOpt.
Open Scope nat_scope.

(** C62.  What par_fasterpam returns is not worse than the medoids it was given, up to rounding; after
    a pass without swaps it is nearly optimal.  The other way to stop is a pass which did not lower the
    computed loss. *)
Theorem C62_quality {Nt : Type} `{HO : OrdLaws Nt} `{HF : FromN Nt f64} (M : Mat Nt) n D orc order med maxiter mx :
  diss_matrix M n D -> exact_from n D -> at_most n D mx -> sizes n (length med) -> (forall x, In x med -> x < n) ->
  2 <= length med -> lfrom (nzero : Nt) = S754_zero false -> Permutation order (seq 0 n) -> valid_oracle orc ->
  exists r : pam_result f64, par_fasterpam M orc order med maxiter = Ok r /\
    (tdev (vals D) n (r_med r) <= tdev (vals D) n med + inject_Z (Z.of_nat n + 1) * rounding n mx)%Q /\
    (r_swaps r = 0 -> 1 <= maxiter -> nearly_optimal (vals D) n (r_med r) (rounding n mx)) /\
    (r_iter r < maxiter -> nearly_optimal (vals D) n (r_med r) (rounding n mx) \/
       stalled (par_fasterpam M orc order med) r).
Proof.
  intros HD he hm hs hin hk hz hp hor. destruct (f64_fits n D mx _ hm hs) as (f1 & f2 & f3 & f4).
  exact (par_quality M n D mx (rounding n mx) HD (exact_in_f64 he) f1 f2 f3 f4 (eps_le n mx) hz orc order med maxiter hs hin hk hp hor).
Qed.
Print Assumptions C62_quality.
Definition C62_case_quality := C62_quality _ 5 _ P_Pam.orc2 [4; 2; 0; 1; 3] [0; 1] 10 1 f1_diss
  (f64_exact_from _ _ _ (diss_nonneg _ _ _ f1_diss)) f1_at_most s52 (proj2 (proj2 k52)) (le_n 2) eq_refl perm5' P_Pam.orc2_ok.
Definition C62_case_integers := C62_quality _ 6 _ P_Pam.orc2 (seq 0 6) [0; 1] 10 20 m6_diss d6_exact d6_at_most s62 (proj2 (proj2 k62))
  (le_n 2) eq_refl (Permutation_refl _) P_Pam.orc2_ok.

(** It stops by itself, although the loss is summed up in another way in every pass: each time it goes
    on the loss went down, and for each list of medoids there are at most 5n floating-point numbers the
    loss can be. *)
Theorem C62_termination {Nt : Type} `{HO : OrdLaws Nt} `{HF : FromN Nt f64} (M : Mat Nt) n D orc order med mx :
  diss_matrix M n D -> exact_from n D -> at_most n D mx -> sizes n (length med) -> (forall x, In x med -> x < n) ->
  lfrom (nzero : Nt) = S754_zero false -> (forall j, In j order -> j < n) -> valid_oracle orc ->
  stops_by_itself (par_fasterpam (Lt := f64) M orc order med) ((5 * n + 1) * n ^ length med).
Proof.
  intros HD he hm hs hin hz ho hor. pose proof (proj1 HD) as HM. destruct (f64_fits n D mx _ hm hs) as (f1 & f2 & f3 & f4).
  pose proof (pow_pos _ _ hs) as hB.
  destruct (Nat.eq_dec (length med) 1) as [h1|h1].
  - assert (e : forall f, par_fasterpam (Lt := f64) M orc order med f = single_medoid M med).
    { intros f. unfold par_fasterpam. rewrite (proj2 (Nat.eqb_eq _ _) h1). reflexivity. }
    apply stops_intro; [|intros; rewrite !e; reflexivity].
    rewrite e. eapply single_stops; eauto. nia.
  - assert (hk : 2 <= length med) by (destruct hs; lia).
    apply stops_intro; [eapply oks_mono; [apply (par_fasterpam_shape HM); auto|]; intros r h; apply h|].
    apply (par_fuel M n D mx HD (exact_in_f64 he) f1 f2 f3 f4); auto.
Qed.
Print Assumptions C62_termination.
Definition C62_case_termination := C62_termination _ 5 _ P_Pam.orc2 [4; 2; 0; 1; 3] [0; 1] 1 f1_diss
  (f64_exact_from _ _ _ (diss_nonneg _ _ _ f1_diss)) f1_at_most s52 (proj2 (proj2 k52)) eq_refl
  (fun j h => ltac:(simpl in h; lia)) P_Pam.orc2_ok.

(** With enough iterations, on metric data: within a factor of five of the optimum up to rounding,
    unless the last pass did not lower the computed loss. *)
Theorem C62_metric {Nt : Type} `{HO : OrdLaws Nt} `{HF : FromN Nt f64} (M : Mat Nt) n D orc order med mx :
  diss_matrix M n D -> exact_from n D -> at_most n D mx -> sizes n (length med) -> (forall x, In x med -> x < n) ->
  2 <= length med -> lfrom (nzero : Nt) = S754_zero false -> Permutation order (seq 0 n) -> valid_oracle orc ->
  metric n (vals D) ->
  exists r : pam_result f64,
    (forall maxiter, (5 * n + 1) * n ^ length med < maxiter -> par_fasterpam M orc order med maxiter = Ok r) /\
    (five_up_to (vals D) n (length med) (rounding n mx) (r_med r) \/ stalled (par_fasterpam M orc order med) r).
Proof.
  intros HD he hm hs hin hk hz hp hor hme. pose proof hm as [hb hmx].
  destruct (C62_termination M n D orc order med mx HD he hm hs hin hz) as (r & hi & hr); auto.
  { intros j hj. apply (Permutation_in _ hp) in hj. apply in_seq in hj. lia. }
  set (B := (5 * n + 1) * n ^ length med) in *. exists r. split; [intros m hlt; apply hr; lia|].
  destruct (C62_quality M n D orc order med (S B) mx HD he hm hs hin hk hz hp hor) as (r' & e & _ & _ & h).
  rewrite (hr (S B)) in e by lia. injection e as <-. destruct (h ltac:(lia)) as [h1|h1]; [left|right; exact h1].
  assert (ho' : forall j, In j order -> j < n).
  { intros j hj. apply (Permutation_in _ hp) in hj. apply in_seq in hj. lia. }
  pose proof (par_fasterpam_shape (Lt := f64) (proj1 HD) orc order (med := med) (S B) hs hin hk ho') as hsh.
  rewrite (hr (S B)) in hsh by lia. destruct hsh
    as (hl & hinr & _).
  destruct (f64_fits n D mx _ hm hs) as (f1 & f2 & f3 & f4). apply nearly_five; auto.
  exact (e_pos M n D mx (rounding n mx) HD f1 f3 (eps_le n mx)).
Qed.
Print Assumptions C62_metric.
Definition C62_case_metric := C62_metric _ 4 _ P_Pam.orc2 (seq 0 4) [0; 1] 1 stall_diss
  (f64_exact_from _ _ _ (diss_nonneg _ _ _ stall_diss)) stall_at_most s42 (proj2 (proj2 k42)) (le_n 2) eq_refl
  (Permutation_refl _) P_Pam.orc2_ok stall_metric.
