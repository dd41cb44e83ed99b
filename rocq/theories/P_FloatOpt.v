(** P_FloatOpt.v -- property C61: how good the medoids are at which the swap algorithms stop in
    binary64.  Every theorem is followed by a concrete input which meets its hypotheses. *)
From Coq Require Import ZArith QArith Qabs Lqa Lia Permutation.
From Coq.Floats Require Import SpecFloat.
From Verif Require Import Base Num M_Mat M_Util M_Fasterpam M_Pam Inst Hoare Spec SpecFacts Laws FloatFacts FloatRound
  PamShape PamExact PamFacts FloatMain FloatSil FloatLoss FloatFmt FloatSwap FloatQuality Approx TermFloat Ex P_Fasterpam P_Pam P_Float P_Bounded P_Rounding P_Term.
Open Scope nat_scope.

(** the error made by rounding, for entries up to [mx] *)
Definition rounding (n : nat) (mx : Q) : Q := (inject_Z (Z.of_nat n * Z.of_nat n) * mx * 2 ^ (-46))%Q.
(** the entries of the matrix are at most [mx], and this is not too large *)
Definition at_most {Nt} `{OrdLaws Nt} (n : nat) (D : nat -> nat -> Nt) (mx : Q) : Prop :=
  (mx <= 2 ^ 970)%Q /\ forall x y, x < n -> y < n -> (vals D x y <= mx)%Q.
(** The returned medoids are nearly optimal, or are one swap away from nearly optimal ones and have
    nearly the same total deviation; the returned loss is nearly that total deviation. *)
Definition stops_near (v : diss) (n k : nat) (e : Q) (r : pam_result f64) : Prop :=
  exists med0, medoids n k med0 /\ nearly_optimal v n med0 e /\
    (r_med r = med0 \/ exists b j, b < k /\ j < n /\ r_med r = swap med0 b j) /\
    (Qabs (tdev v n (r_med r) - tdev v n med0) <= e)%Q /\ off_by e (tdev v n med0) (r_loss r).

Lemma eps_rounding n mx : (eps (Lt := f64) n mx == rounding n mx)%Q.
Proof. unfold eps, rounding, FloatSil.cnt. rewrite inject_Z_mult.
  assert (e : (128 * lunit (Lt := f64) == 2 ^ (-46))%Q) by reflexivity. rewrite e. reflexivity. Qed.
Lemma eps_le n mx : (eps (Lt := f64) n mx <= rounding n mx)%Q.
Proof. rewrite eps_rounding. apply Qle_refl. Qed.

(** the conditions of FloatQuality.v *)
Lemma f64_fits {Nt : Type} `{HO : OrdLaws Nt} n (D : nat -> nat -> Nt) mx k : at_most n D mx -> sizes n k ->
  (forall x y, x < n -> y < n -> (vals D x y <= mx)%Q) /\ (4 * FloatSil.cnt n * mx <= lbig (Lt := f64))%Q /\
  1 <= n /\ (64 * FloatSil.cnt n * lunit (Lt := f64) <= 1)%Q.
Proof.
  intros [hb hmx] hs. assert (hn : 1 <= n) by (destruct hs; lia). assert (hn32 : (N.of_nat n <= 4294967295)%N) by apply hs.
  split; [exact hmx|]. split; [apply f64_room; auto|]. split; [exact hn|]. apply f64_few; auto.
Qed.

(** C61.  fastpam1 and the swap phase of PAM. *)
Theorem C61_fastpam1_pam {Nt : Type} `{HO : OrdLaws Nt} `{HF : FromN Nt f64} (M : Mat Nt) n D med maxiter mx :
  diss_matrix M n D -> exact_from n D -> at_most n D mx -> sizes n (length med) -> medoids n (length med) med ->
  2 <= length med -> lfrom (nzero : Nt) = S754_zero false ->
  exists r1 r2 : pam_result f64, fastpam1 M med maxiter = Ok r1 /\ pam_swap M med maxiter = Ok r2 /\
    forall r, r = r1 \/ r = r2 ->
      (tdev (vals D) n (r_med r) <= tdev (vals D) n med + 3 * rounding n mx)%Q /\
      (r_iter r < maxiter -> stops_near (vals D) n (length med) (rounding n mx) r).
Proof.
  intros HD he hm hs (_ & hnd & hin) hk hz. destruct (f64_fits n D mx _ hm hs) as (f1 & f2 & f3 & f4).
  exact (fastpam1_pam_quality M n D mx (rounding n mx) HD (exact_in_f64 he) f1 f2 f3 f4 (eps_le n mx) hz med maxiter hs hin hnd hk).
Qed.
Print Assumptions C61_fastpam1_pam.
Lemma f1_at_most : at_most 5 (fentries rows_f1) 1.
Proof.
  split; [vm_compute; discriminate|]. intros x y hx hy.
  do 5 (destruct x; [do 5 (destruct y; [vm_compute; discriminate|]); lia|]). lia.
Qed.
Definition C61_case_fastpam1_pam := C61_fastpam1_pam _ 5 _ [0; 1] 10 1 f1_diss
  (f64_exact_from _ _ _ (diss_nonneg _ _ _ f1_diss)) f1_at_most s52 k52 (le_n 2) eq_refl.
(** with integer dissimilarities and binary64 losses *)
Lemma d6_at_most : at_most 6 d6 20.
Proof.
  split; [vm_compute; discriminate|]. intros x y hx hy.
  do 6 (destruct x; [do 6 (destruct y; [vm_compute; discriminate|]); lia|]). lia.
Qed.
Definition C61_case_integers := C61_fastpam1_pam _ 6 _ [0; 1] 10 20 m6_diss d6_exact d6_at_most s62 k62 (le_n 2) eq_refl.

(** On metric data they are within a factor of five of the optimum, up to rounding. *)
Lemma stops_five v n k e r : metric n v -> stops_near v n k e r -> five_up_to v n k e (r_med r).
Proof.
  intros hm (med0 & (m1 & m2 & m3) & h2 & _ & h4 & _) opt hl hin. apply Qabs_Qle_condition in h4.
  pose proof (five_times_slack (v := v) (n := n) med0 opt (e := e) hm m3 hin ltac:(rewrite m1; exact hl) h2) as h.
  rewrite m1 in h. rewrite inject_Z_plus. change (inject_Z 1) with 1%Q. lra.
Qed.

Theorem C61_metric {Nt : Type} `{HO : OrdLaws Nt} `{HF : FromN Nt f64} (M : Mat Nt) n D med maxiter mx :
  diss_matrix M n D -> exact_from n D -> at_most n D mx -> sizes n (length med) -> medoids n (length med) med ->
  2 <= length med -> lfrom (nzero : Nt) = S754_zero false -> metric n (vals D) ->
  exists r1 r2 : pam_result f64, fastpam1 M med maxiter = Ok r1 /\ pam_swap M med maxiter = Ok r2 /\
    (r_iter r1 < maxiter -> five_up_to (vals D) n (length med) (rounding n mx) (r_med r1)) /\
    (r_iter r2 < maxiter -> five_up_to (vals D) n (length med) (rounding n mx) (r_med r2)).
Proof.
  intros hd he hb hs hm hk hz hme.
  destruct (C61_fastpam1_pam M n D med maxiter mx hd he hb hs hm hk hz) as (r1 & r2 & e1 & e2 & h).
  exists r1, r2. split; [exact e1|]. split; [exact e2|].
  split; intros hlt; (eapply stops_five; [exact hme|]); apply h; auto.
Qed.
Print Assumptions C61_metric.

(** Four objects; from the medoids 0 and 1 the loss computed by the swap algorithms does not go down. *)
Definition rows_stall : list (list f64) := Eval vm_compute in
  [[f64_of_Z 0; tenth 6; tenth 6; tenth 3]; [tenth 6; f64_of_Z 0; tenth 9; tenth 4];
   [tenth 6; tenth 9; f64_of_Z 0; tenth 6]; [tenth 3; tenth 4; tenth 6; f64_of_Z 0]]%Z.
Lemma stall_ok : frows_ok 4 rows_stall = true.
Proof. vm_compute. reflexivity. Qed.
Definition stall_diss := frows_diss 4 rows_stall ltac:(lia) stall_ok.
Lemma stall_at_most : at_most 4 (fentries rows_stall) 1.
Proof.
  split; [vm_compute; discriminate|]. intros x y hx hy.
  do 4 (destruct x; [do 4 (destruct y; [vm_compute; discriminate|]); lia|]). lia.
Qed.
Lemma s42 : sizes 4 2. Proof. apply sizes_ok. reflexivity. Qed.
Lemma k42 : medoids 4 2 [0; 1]. Proof. apply meds_ok. reflexivity. Qed.
Lemma stall_metric : metric 4 (vals (fentries rows_stall)).
Proof. apply metric_rows; [lia|exact stall_ok|vm_compute; reflexivity]. Qed.
Definition C61_case_metric := C61_metric _ 4 _ [0; 1] 10 1 stall_diss
  (f64_exact_from _ _ _ (diss_nonneg _ _ _ stall_diss)) stall_at_most s42 k42 (le_n 2) eq_refl stall_metric.

(** With a limit above n^k they always get there. *)
Theorem C61_enough_iterations (M : Mat f64) n D med maxiter mx :
  diss_matrix M n D -> no_negative_zero n D -> at_most n D mx -> sizes n (length med) -> medoids n (length med) med ->
  2 <= length med -> n ^ length med < maxiter ->
  exists r1 r2 : pam_result f64, fastpam1 M med maxiter = Ok r1 /\ pam_swap M med maxiter = Ok r2 /\
    forall r, r = r1 \/ r = r2 ->
      stops_near (vals D) n (length med) (rounding n mx) r /\
      (metric n (vals D) -> five_up_to (vals D) n (length med) (rounding n mx) (r_med r)).
Proof.
  intros hd hz hb hs hm hk hlt.
  destruct (C61_fastpam1_pam M n D med maxiter mx hd (f64_exact_from _ _ _ (diss_nonneg _ _ _ hd)) hb hs hm hk eq_refl)
    as (r1 & r2 & e1 & e2 & h).
  destruct (C60_fastpam1_pam M n D med hd hz hs (proj2 (proj2 hm))) as (h1 & h2 & _).
  destruct h1 as (r1' & g1 & h1). destruct h2 as (r2' & g2 & h2).
  specialize (h1 maxiter ltac:(lia)). specialize (h2 maxiter ltac:(lia)).
  assert (r1' = r1) as -> by congruence. assert (r2' = r2) as -> by congruence.
  exists r1, r2. split; [exact e1|]. split; [exact e2|]. intros r hr.
  assert (hi : r_iter r < maxiter) by (destruct hr as [->| ->]; lia).
  pose proof (proj2 (h r hr) hi) as hst. split; [exact hst|]. intros hme. apply stops_five; auto.
Qed.
Print Assumptions C61_enough_iterations.
Definition C61_case_enough := C61_enough_iterations _ 5 _ [0; 1] 26 1 f1_diss f1_no_negative_zero f1_at_most s52 k52 (le_n 2)
  (le_n 26).

(** fasterpam, for every order of the candidates: what it returns is not worse than the medoids it was
    given, up to rounding; after a pass without swaps it is nearly optimal.  The other way to stop is a
    pass which did not lower the computed loss. *)
Definition stalled (run : nat -> res (pam_result f64)) (r : pam_result f64) : Prop :=
  exists i r0, r_iter r = S i /\ run i = Ok r0 /\ (f64_val (r_loss r0) <= f64_val (r_loss r))%Q.

Theorem C61_fasterpam {Nt : Type} `{HO : OrdLaws Nt} `{HF : FromN Nt f64} (M : Mat Nt) n D order med maxiter mx :
  diss_matrix M n D -> exact_from n D -> at_most n D mx -> sizes n (length med) -> medoids n (length med) med ->
  2 <= length med -> lfrom (nzero : Nt) = S754_zero false -> Permutation order (seq 0 n) ->
  exists r : pam_result f64, rand_fasterpam M order med maxiter = Ok r /\
    (tdev (vals D) n (r_med r) <= tdev (vals D) n med + inject_Z (Z.of_nat n + 1) * rounding n mx)%Q /\
    (r_swaps r = 0 -> 1 <= maxiter -> nearly_optimal (vals D) n (r_med r) (rounding n mx)) /\
    (r_iter r < maxiter -> nearly_optimal (vals D) n (r_med r) (rounding n mx) \/
       stalled (rand_fasterpam M order med) r).
Proof.
  intros HD he hm hs (_ & hnd & hin) hk hz hp. destruct (f64_fits n D mx _ hm hs) as (f1 & f2 & f3 & f4).
  exact (fasterpam_quality M n D mx (rounding n mx) HD (exact_in_f64 he) f1 f2 f3 f4 (eps_le n mx) hz order med maxiter hs hin hk hp).
Qed.
Print Assumptions C61_fasterpam.
Lemma perm5' : Permutation [4; 2; 0; 1; 3] (seq 0 5).
Proof.
  apply NoDup_Permutation; [repeat constructor; simpl; intuition lia|apply seq_NoDup|]. intros x. rewrite in_seq. simpl. lia.
Qed.
Definition C61_case_fasterpam := C61_fasterpam _ 5 _ [4; 2; 0; 1; 3] [0; 1] 10 1 f1_diss
  (f64_exact_from _ _ _ (diss_nonneg _ _ _ f1_diss)) f1_at_most s52 k52 (le_n 2) eq_refl perm5'.
Definition C61_case_fasterpam_integers := C61_fasterpam _ 6 _ (seq 0 6) [0; 1] 10 20 m6_diss d6_exact d6_at_most s62 k62
  (le_n 2) eq_refl (Permutation_refl _).

(** The medoids returned need not be nearly optimal themselves: on this metric on four objects a swap
    which changes nothing is made first because of the rounding errors, then the computed loss is not
    less than before, and the algorithm stops; yet one swap would lower the total deviation by a
    sixth. *)
Theorem C61_stall_refuted : exists (M : Mat f64) n D med,
  diss_matrix M n D /\ no_negative_zero n D /\ metric n (vals D) /\ at_most n D 1 /\
  sizes n (length med) /\ medoids n (length med) med /\
  forall maxiter, 2 <= maxiter -> exists r, fasterpam (Lt := f64) M med maxiter = Ok r /\ fastpam1 M med maxiter = Ok r /\
    r_iter r = 1 /\ r_swaps r = 1 /\
    exists b j, b < length med /\ j < n /\ (tdev (vals D) n (swap (r_med r) b j) < (5 # 6) * tdev (vals D) n (r_med r))%Q.
Proof.
  exists (mat_of_rows rows_stall), 4, (fentries rows_stall), [0; 1].
  split; [apply stall_diss|]. split.
  { intros i j hi hj. do 4 (destruct i; [do 4 (destruct j; [vm_compute; discriminate|]); lia|]). lia. }
  split; [exact stall_metric|]. split; [exact stall_at_most|]. split; [exact s42|]. split; [exact k42|].
  intros maxiter hm. destruct maxiter as [|[|f]]; [lia..|].
  eexists. split; [vm_compute; reflexivity|]. split; [vm_compute; reflexivity|]. split; [reflexivity|]. split; [reflexivity|].
  exists 1, 2. split; [simpl; lia|]. split; [lia|]. vm_compute. reflexivity.
Qed.
Print Assumptions C61_stall_refuted.

(** The same for the swap phase of PAM. *)
Definition rows_stall_pam : list (list f64) := Eval vm_compute in
  [[f64_of_Z 0; tenth 3; tenth 3; tenth 2; tenth 3]; [tenth 3; f64_of_Z 0; tenth 2; tenth 1; tenth 2];
   [tenth 3; tenth 2; f64_of_Z 0; tenth 2; tenth 1]; [tenth 2; tenth 1; tenth 2; f64_of_Z 0; tenth 2];
   [tenth 3; tenth 2; tenth 1; tenth 2; f64_of_Z 0]]%Z.
Lemma stall_pam_ok : frows_ok 5 rows_stall_pam = true.
Proof. vm_compute. reflexivity. Qed.
Theorem C61_stall_pam_refuted : exists (M : Mat f64) n D med,
  diss_matrix M n D /\ no_negative_zero n D /\ metric n (vals D) /\ at_most n D 1 /\
  sizes n (length med) /\ medoids n (length med) med /\
  forall maxiter, 2 <= maxiter -> exists r, pam_swap (Lt := f64) M med maxiter = Ok r /\ r_iter r = 1 /\ r_swaps r = 1 /\
    exists b j, b < length med /\ j < n /\ (tdev (vals D) n (swap (r_med r) b j) < (5 # 6) * tdev (vals D) n (r_med r))%Q.
Proof.
  exists (mat_of_rows rows_stall_pam), 5, (fentries rows_stall_pam), [0; 1].
  split; [apply frows_diss; [lia|exact stall_pam_ok]|]. split.
  { intros i j hi hj. do 5 (destruct i; [do 5 (destruct j; [vm_compute; discriminate|]); lia|]). lia. }
  split; [apply metric_rows; [lia|exact stall_pam_ok|vm_compute; reflexivity]|].
  split.
  { split; [vm_compute; discriminate|]. intros x y hx hy.
    do 5 (destruct x; [do 5 (destruct y; [vm_compute; discriminate|]); lia|]). lia. }
  split; [exact s52|]. split; [exact k52|].
  intros maxiter hm. destruct maxiter as [|[|f]]; [lia..|].
  eexists. split; [vm_compute; reflexivity|]. split; [reflexivity|]. split; [reflexivity|].
  exists 1, 3. split; [simpl; lia|]. split; [lia|]. vm_compute. reflexivity.
Qed.
Print Assumptions C61_stall_pam_refuted.
