(** P_Msc.v -- properties C24 to C29 (and C11 for the MSC family): FasterMSC, FastMSC, and the swap
    phase of PAMMEDSIL.  Every theorem is followed by a concrete input which meets its hypotheses. *)
From Coq Require Import ZArith QArith Lqa Lia.
From Verif Require Import Base Num M_Mat M_Util M_Fasterpam M_Silhouette M_Msc M_Pammedsil Inst Hoare
  Spec SpecFacts Laws PamShape PamExact LocalSearch ChooseFacts FpFacts PamFacts PamMain SortFacts SilFacts
  MscShape MscExact MscFacts MscK2 MscMain Ex P_Pam.
Open Scope nat_scope.

Lemma le33 : 3 <= 3. Proof. lia. Qed.

(** C11, MSC family: with one medoid the sum of dissimilarities is minimised and returned. *)
Theorem C11_msc_single_medoid {Nt Lt : Type} `{HLL : LossLaws Nt Lt} (M : Mat Nt) n D x maxiter :
  diss_matrix M n D -> sizes n 1 -> x < n ->
  best_single (Lt := Lt) n (vals D) x (fastermsc M [x] maxiter) /\
  best_single (Lt := Lt) n (vals D) x (fastmsc M [x] maxiter) /\
  best_single (Lt := Lt) n (vals D) x (pammedsil_swap M [x] maxiter).
Proof.
  intros hd hs hx.
  destruct (msc_single (Lt := Lt) (proj1 hd) maxiter hs hx) as (-> & -> & ->).
  assert (h : best_single (Lt := Lt) n (vals D) x (single_medoid M [x])); [|auto 10].
  pose proof (single_medoid_ok (Lt := Lt) hd (med := [x]) eq_refl) as h.
  assert (hin : inr n [x]) by (intros m [<-|[]]; auto). specialize (h hin).
  apply oks_inv in h as (r & e & h1 & h2 & best & h3 & h4 & h5 & h6 & _ & h7 & h8).
  exists r, best. auto 12.
Qed.
Print Assumptions C11_msc_single_medoid.
Definition C11_msc_case := C11_msc_single_medoid (Lt := Q) m6 6 d6 1 10 m6_diss (sizes_ok 6 1 eq_refl)
  (le_S _ _ (le_S _ _ (le_S _ _ (le_S _ _ (le_n 2))))).

(** C24.  The value is the medoid silhouette of the returned medoids, as medoid_silhouette
    computes it, and lies in [0,1]. *)
Definition value_is_medoid_silhouette {Nt Lt : Type} `{HLL : LossLaws Nt Lt} (M : Mat Nt) (n : nat)
    (v : diss) (m : res (pam_result Lt)) : Prop :=
  exists r value, m = Ok r /\ (vL (r_loss r) == med_sil v n (r_med r))%Q /\
    (0 <= vL (r_loss r) <= 1)%Q /\
    medoid_silhouette M (r_med r) false = Ok (value, []) /\ (vL (r_loss r) == vL value)%Q.

Lemma summary_value {Nt Lt : Type} `{HLL : LossLaws Nt Lt} `{HDL : !DivLaws Nt Lt} (M : Mat Nt) n D med maxiter r :
  diss_matrix M n D -> sizes n (length med) -> 2 <= length med -> msc_summary n D med maxiter r ->
  value_is_medoid_silhouette (Lt := Lt) M n (vals D) (Ok r).
Proof.
  intros hd hs hk h. destruct (ms_medoids h) as (h1 & h2 & h3). pose proof (ms_value h) as hv.
  assert (hl : 2 <= length (r_med r) <= n) by (destruct hs; lia).
  pose proof (medoid_silhouette_ok (Lt := Lt) (diss_nonneg _ _ _ hd) (r_med r) false hl (proj1 (proj2 hs)) h3) as hm.
  apply oks_inv in hm as ([value vec] & e & q1 & q2 & q3). cbn [fst snd] in *.
  destruct vec; [|discriminate q2].
  exists r, value. split; [auto|]. split; [auto|]. split; [|split; [auto|]].
  - rewrite hv. apply med_sil_range; try lia. intros o m ho hm. apply (diss_vals hd); auto.
  - rewrite hv, q1. reflexivity.
Qed.

Theorem C24_msc_value {Nt Lt : Type} `{HLL : LossLaws Nt Lt} `{HAL : !AddLaws Nt} `{HDL : !DivLaws Nt Lt}
    (M : Mat Nt) n D med maxiter :
  diss_matrix M n D -> sizes n (length med) -> medoids n (length med) med -> 2 <= length med ->
  value_is_medoid_silhouette (Lt := Lt) M n (vals D) (fastermsc M med maxiter) /\
  value_is_medoid_silhouette (Lt := Lt) M n (vals D) (fastmsc M med maxiter) /\
  value_is_medoid_silhouette (Lt := Lt) M n (vals D) (pammedsil_swap M med maxiter).
Proof.
  intros hd hs hm hk.
  destruct (fastermsc_all (Lt := Lt) hd maxiter hs hm hk) as (r1 & -> & h1 & _).
  destruct (fastmsc_all (Lt := Lt) hd maxiter hs hm hk) as (r2 & -> & h2 & _).
  destruct (pammedsil_swap_all (Lt := Lt) hd maxiter hs hm hk) as (r3 & -> & h3 & _).
  split; [|split]; eapply summary_value; eauto.
Qed.
Print Assumptions C24_msc_value.
Definition C24_case := C24_msc_value (Lt := Q) m6 6 d6 [0; 1; 3] 10 m6_diss s63 k63 le23.
Definition C24_case_k2 := C24_msc_value (Lt := Q) m6 6 d6 [0; 1] 10 m6_diss s62 k62 (le_n 2).

(** C25.  Distinct medoids in range, every object with a nearest medoid, every medoid in its own
    cluster: always for pammedsil_swap and for k >= 3 ... *)
Definition msc_consistent {Lt} (n : nat) (v : diss) (k : nat) (r : pam_result Lt) : Prop :=
  medoids n k (r_med r) /\ length (r_assi r) = n /\
  forall o, o < n -> nearest v o (r_med r) (nth o (r_assi r) 0).

Theorem C25_msc_consistent {Nt Lt : Type} `{HLL : LossLaws Nt Lt} `{HAL : !AddLaws Nt} `{HDL : !DivLaws Nt Lt}
    (M : Mat Nt) n D med maxiter :
  diss_matrix M n D -> sizes n (length med) -> medoids n (length med) med -> 2 <= length med ->
  exists r1 r2 r3 : pam_result Lt,
    fastermsc M med maxiter = Ok r1 /\ fastmsc M med maxiter = Ok r2 /\ pammedsil_swap M med maxiter = Ok r3 /\
    msc_consistent n (vals D) (length med) r1 /\ msc_consistent n (vals D) (length med) r2 /\
    msc_consistent n (vals D) (length med) r3 /\
    (3 <= length med -> forall c, c < length med ->
       nth (nth c (r_med r1) 0) (r_assi r1) 0 = c /\ nth (nth c (r_med r2) 0) (r_assi r2) 0 = c) /\
    (forall c, c < length med -> nth (nth c (r_med r3) 0) (r_assi r3) 0 = c).
Proof.
  intros hd hs hm hk.
  destruct (fastermsc_all (Lt := Lt) hd maxiter hs hm hk) as (r1 & e1 & h1 & o1 & _).
  destruct (fastmsc_all (Lt := Lt) hd maxiter hs hm hk) as (r2 & e2 & h2 & o2 & _).
  destruct (pammedsil_swap_all (Lt := Lt) hd maxiter hs hm hk) as (r3 & e3 & h3 & o3 & _).
  exists r1, r2, r3. split; [auto|]. split; [auto|]. split; [auto|].
  assert (C : forall r, msc_summary n D med maxiter r -> msc_consistent n (vals D) (length med) r).
  { intros r [q1 q2 q3]. split; auto. }
  split; [auto|]. split; [auto|]. split; [auto|].
  pose proof (proj1 (ms_medoids h1)) as l1. pose proof (proj1 (ms_medoids h2)) as l2.
  pose proof (proj1 (ms_medoids h3)) as l3. split.
  - intros hk3 c hc. split; [apply o1|apply o2]; auto; congruence.
  - intros c hc. apply o3. congruence.
Qed.
Print Assumptions C25_msc_consistent.
Definition C25_case := C25_msc_consistent (Lt := Q) m6 6 d6 [0; 1; 3] 10 m6_diss s63 k63 le23.
Definition C25_case_k2 := C25_msc_consistent (Lt := Q) m6 6 d6 [0; 1] 10 m6_diss s62 k62 (le_n 2).

(** ... and for k = 2 when the medoids are not at distance 0 from each other. *)
Theorem C25_msc_own_cluster_k2 {Nt Lt : Type} `{HLL : LossLaws Nt Lt} `{HAL : !AddLaws Nt} `{HDL : !DivLaws Nt Lt}
    (M : Mat Nt) n D m0 m1 maxiter :
  diss_matrix M n D -> sizes n 2 -> medoids n 2 [m0; m1] ->
  (forall i j, i < n -> j < n -> i <> j -> (0 < vals D i j)%Q) ->
  exists r1 r2 : pam_result Lt,
    fastermsc M [m0; m1] maxiter = Ok r1 /\ fastmsc M [m0; m1] maxiter = Ok r2 /\
    (forall c, c < 2 -> nth (nth c (r_med r1) 0) (r_assi r1) 0 = c /\ nth (nth c (r_med r2) 0) (r_assi r2) 0 = c).
Proof.
  intros hd hs hm hpos.
  destruct (fastermsc_all (Lt := Lt) hd (med := [m0; m1]) maxiter hs hm (le_n 2)) as (r1 & e1 & h1 & _).
  destruct (fastmsc_all (Lt := Lt) hd (med := [m0; m1]) maxiter hs hm (le_n 2)) as (r2 & e2 & h2 & _).
  exists r1, r2. split; [auto|]. split; [auto|].
  assert (C : forall r, msc_summary n D [m0; m1] maxiter r -> forall c, c < 2 -> nth (nth c (r_med r) 0) (r_assi r) 0 = c).
  { intros r [q1 q2 q3] c hc. pose proof q1 as (l1 & l2 & l3). cbn [length] in l1.
    apply (nearest_own hd (med := r_med r)); auto.
    - rewrite l1. auto.
    - lia.
    - intros c' hc' hne. apply hpos; try (apply l3, nth_In; lia).
      intros e. apply hne. symmetry. apply (proj1 (NoDup_nth (r_med r) 0) l2); auto; lia. }
  auto.
Qed.
Print Assumptions C25_msc_own_cluster_k2.
Lemma m5_pos i j : i < 5 -> j < 5 -> i <> j -> (0 < vals d5 i j)%Q.
Proof.
  intros hi hj hne. do 5 (destruct i as [|i]; [do 5 (destruct j as [|j]; [try lia; reflexivity|]); lia|]). lia.
Qed.
Definition C25_own_case := C25_msc_own_cluster_k2 (Lt := Q) m5 5 d5 0 1 10 m5_diss s52 k52 m5_pos.

(** With duplicate points and k = 2 a cluster may be empty, not containing its medoid. *)
Definition rows_zero2 : list (list Z) := [[0; 0]; [0; 0]]%Z.
Theorem C25_k2_empty_cluster_refuted : exists (M : Mat Z) D (r1 r2 : pam_result Q),
  diss_matrix M 2 D /\ medoids 2 2 [0; 1] /\
  fastermsc M [0; 1] 10 = Ok r1 /\ fastmsc M [0; 1] 10 = Ok r2 /\
  ~ In 0 (r_assi r1) /\ ~ In 0 (r_assi r2).
Proof.
  exists (mat_of_rows rows_zero2), (entries rows_zero2). eexists. eexists.
  split; [apply rows_diss; [lia|reflexivity]|]. split; [apply meds_ok; reflexivity|].
  split; [vm_compute; reflexivity|]. split; [vm_compute; reflexivity|].
  cbn. split; intros [h|[h|[]]]; discriminate h.
Qed.
Print Assumptions C25_k2_empty_cluster_refuted.

(** C26.  FasterMSC never worsens, improves with every swap, and ends in a local optimum. *)
Theorem C26_fastermsc_local_optimum {Nt Lt : Type} `{HLL : LossLaws Nt Lt} `{HAL : !AddLaws Nt} `{HDL : !DivLaws Nt Lt}
    (M : Mat Nt) n D med maxiter :
  diss_matrix M n D -> sizes n (length med) -> medoids n (length med) med -> 2 <= length med ->
  exists r : pam_result Lt, fastermsc M med maxiter = Ok r /\
    (med_sil (vals D) n med <= med_sil (vals D) n (r_med r))%Q /\
    (0 < r_swaps r -> (med_sil (vals D) n med < med_sil (vals D) n (r_med r))%Q) /\
    (r_swaps r = 0 -> r_med r = med) /\
    r_iter r <= maxiter /\ r_iter r <= S (r_swaps r) /\ r_swaps r < n ^ length med /\
    (r_iter r < maxiter \/ (r_swaps r = 0 /\ 0 < maxiter) -> sil_optimal (vals D) n (r_med r)).
Proof.
  intros hd hs hm hk.
  destruct (fastermsc_all (Lt := Lt) hd maxiter hs hm hk) as (r & e & h & _ & hb & _).
  exists r. destruct h. auto 12.
Qed.
Print Assumptions C26_fastermsc_local_optimum.
Definition C26_case := C26_fastermsc_local_optimum (Lt := Q) m6 6 d6 [0; 1; 3] 10 m6_diss s63 k63 le23.
Definition C26_case_k2 := C26_fastermsc_local_optimum (Lt := Q) m6 6 d6 [0; 1] 10 m6_diss s62 k62 (le_n 2).

(** hence with enough iterations the result is a local optimum *)
Theorem C26_fastermsc_converges {Nt Lt : Type} `{HLL : LossLaws Nt Lt} `{HAL : !AddLaws Nt} `{HDL : !DivLaws Nt Lt}
    (M : Mat Nt) n D med maxiter :
  diss_matrix M n D -> sizes n (length med) -> medoids n (length med) med -> 2 <= length med ->
  n ^ length med < maxiter ->
  exists r : pam_result Lt, fastermsc M med maxiter = Ok r /\ r_iter r < maxiter /\
    sil_optimal (vals D) n (r_med r).
Proof.
  intros hd hs hm hk hmax.
  destruct (fastermsc_all (Lt := Lt) hd maxiter hs hm hk) as (r & e & h & _ & hb & _).
  exists r. destruct h. split; [auto|]. assert (r_iter r < maxiter) by lia. auto.
Qed.
Print Assumptions C26_fastermsc_converges.
Definition C26_converges_case := C26_fastermsc_converges (Lt := Q) m6 6 d6 [0; 1] 100 m6_diss s62 k62 (le_n 2)
  ltac:(apply Nat.ltb_lt; reflexivity).

(** Replacing a medoid by a copy of another one is not a swap in the sense of [sil_optimal] (the
    code never evaluates it): it can raise the medoid silhouette of a local optimum. *)
Definition rows_dup : list (list Z) := [[0; 1; 5; 1]; [1; 0; 5; 1]; [5; 5; 0; 5]; [1; 1; 5; 0]]%Z.
Theorem C26_duplicate_medoid_refuted : exists (M : Mat Z) D (r : pam_result Q) b j,
  diss_matrix M 4 D /\ medoids 4 3 [0; 1; 2] /\ fastermsc M [0; 1; 2] 10 = Ok r /\ r_iter r < 10 /\
  b < 3 /\ j < 4 /\ (med_sil (vals D) 4 (r_med r) < med_sil (vals D) 4 (swap (r_med r) b j))%Q.
Proof.
  exists (mat_of_rows rows_dup), (entries rows_dup). eexists. exists 0, 2.
  split; [apply rows_diss; [lia|reflexivity]|]. split; [apply meds_ok; reflexivity|].
  split; [vm_compute; reflexivity|]. cbn [r_iter r_med].
  split; [lia|]. split; [lia|]. split; [lia|]. vm_compute. reflexivity.
Qed.
Print Assumptions C26_duplicate_medoid_refuted.

(** C27.  FastMSC returns exactly what PAMMEDSIL returns, for k <> 2 ... *)
Theorem C27_fastmsc_is_pammedsil {Nt Lt : Type} `{HLL : LossLaws Nt Lt} `{HAL : !AddLaws Nt} `{HDL : !DivLaws Nt Lt}
    (M : Mat Nt) n D med maxiter :
  diss_matrix M n D -> sizes n (length med) -> medoids n (length med) med -> length med <> 2 ->
  exists r : pam_result Lt, fastmsc M med maxiter = Ok r /\ pammedsil_swap M med maxiter = Ok r.
Proof.
  intros hd hs hm hk. destruct (Nat.eq_dec (length med) 1) as [h1|h1].
  - destruct med as [|x [|]]; simpl in h1; try lia.
    assert (hx : x < n) by (apply hm; simpl; auto).
    destruct (msc_single (Lt := Lt) (proj1 hd) maxiter hs hx) as (_ & -> & ->).
    destruct (single_returns (Lt := Lt) (proj1 hd) hx) as (r & e & _). eauto.
  - apply (fastmsc_pammedsil_swap hd); auto. destruct hs; lia.
Qed.
Print Assumptions C27_fastmsc_is_pammedsil.
Definition C27_case := C27_fastmsc_is_pammedsil (Lt := Q) m6 6 d6 [0; 1; 3] 10 m6_diss s63 k63 ltac:(simpl; lia).

(** ... and for k = 2 the same medoids, value and counters; the assignments are the same if no
    object is at the same distance from both medoids. *)
Theorem C27_fastmsc_is_pammedsil_k2 {Nt Lt : Type} `{HLL : LossLaws Nt Lt} `{HAL : !AddLaws Nt} `{HDL : !DivLaws Nt Lt}
    (M : Mat Nt) n D med maxiter :
  diss_matrix M n D -> sizes n (length med) -> medoids n (length med) med -> length med = 2 ->
  exists r r' : pam_result Lt, fastmsc M med maxiter = Ok r /\ pammedsil_swap M med maxiter = Ok r' /\
    r_med r = r_med r' /\ r_iter r = r_iter r' /\ r_swaps r = r_swaps r' /\
    (vL (r_loss r) == vL (r_loss r'))%Q /\
    ((forall o, o < n -> ~ (vals D o (nth 0 (r_med r) 0%nat) == vals D o (nth 1 (r_med r) 0%nat))%Q) ->
     r_assi r = r_assi r').
Proof.
  intros hd hs hm hk.
  destruct (fastmsc_pammedsil_swap_k2 (Lt := Lt) hd maxiter hs hm hk) as (r & r' & e & e' & h1 & h2 & h3 & h4).
  exists r, r'. split; [auto|]. split; [auto|]. split; [auto|]. split; [auto|]. split; [auto|]. split; [auto|].
  intros hno. assert (hk2 : 2 <= length med) by lia.
  destruct (fastmsc_all (Lt := Lt) hd maxiter hs hm hk2) as (q & eq & q1 & _). rewrite e in eq. injection eq as <-.
  destruct (pammedsil_swap_all (Lt := Lt) hd maxiter hs hm hk2) as (q & eq & q2 & _). rewrite e' in eq. injection eq as <-.
  apply nth_ext with (d := 0) (d' := 0).
  - rewrite (ms_assi_len q1), (ms_assi_len q2). auto.
  - intros o ho. rewrite (ms_assi_len q1) in ho.
    destruct (ms_nearest q1 ho) as [a1 a2]. destruct (ms_nearest q2 ho) as [b1 b2].
    pose proof (proj1 (ms_medoids q1)) as hl. rewrite <- h1 in b1, b2. rewrite hl, hk in *.
    specialize (hno o ho).
    destruct (nth o (r_assi r) 0) as [|[|]]; destruct (nth o (r_assi r') 0) as [|[|]]; auto; try lia; exfalso;
      apply hno; [specialize (a2 1 ltac:(lia)); specialize (b2 0 ltac:(lia))|
                  specialize (a2 0 ltac:(lia)); specialize (b2 1 ltac:(lia))]; lra.
Qed.
Print Assumptions C27_fastmsc_is_pammedsil_k2.
Definition C27_k2_case := C27_fastmsc_is_pammedsil_k2 (Lt := Q) m6 6 d6 [0; 1] 10 m6_diss s62 k62 eq_refl.

Theorem C27_k2_assignment_refuted : exists (M : Mat Z) D (r r' : pam_result Q),
  diss_matrix M 2 D /\ medoids 2 2 [0; 1] /\
  fastmsc M [0; 1] 10 = Ok r /\ pammedsil_swap M [0; 1] 10 = Ok r' /\ r_assi r <> r_assi r'.
Proof.
  exists (mat_of_rows rows_zero2), (entries rows_zero2). eexists. eexists.
  split; [apply rows_diss; [lia|reflexivity]|]. split; [apply meds_ok; reflexivity|].
  split; [vm_compute; reflexivity|]. split; [vm_compute; reflexivity|].
  cbn. congruence.
Qed.
Print Assumptions C27_k2_assignment_refuted.

(** C28.  Steepest descent: never worse, one swap per iteration, a local optimum at the end. *)
Definition steepest_sil {Lt} (n : nat) (v : diss) (med : list nat) (maxiter : nat) (r : pam_result Lt) : Prop :=
  (med_sil v n med <= med_sil v n (r_med r))%Q /\
  (0 < r_swaps r -> (med_sil v n med < med_sil v n (r_med r))%Q) /\
  (r_swaps r = 0 -> r_med r = med) /\
  ((r_iter r = S (r_swaps r) /\ sil_optimal v n (r_med r)) \/ (r_iter r = r_swaps r /\ r_iter r = maxiter)) /\
  r_swaps r < n ^ length med /\ r_iter r <= maxiter /\
  (r_iter r < maxiter -> sil_optimal v n (r_med r)).

Theorem C28_steepest_descent {Nt Lt : Type} `{HLL : LossLaws Nt Lt} `{HAL : !AddLaws Nt} `{HDL : !DivLaws Nt Lt}
    (M : Mat Nt) n D med maxiter :
  diss_matrix M n D -> sizes n (length med) -> medoids n (length med) med -> 2 <= length med ->
  exists r r' : pam_result Lt, fastmsc M med maxiter = Ok r /\ pammedsil_swap M med maxiter = Ok r' /\
    steepest_sil n (vals D) med maxiter r /\ steepest_sil n (vals D) med maxiter r'.
Proof.
  intros hd hs hm hk.
  destruct (fastmsc_all (Lt := Lt) hd maxiter hs hm hk) as (r & e & h & _ & hst & hb & _).
  destruct (pammedsil_swap_all (Lt := Lt) hd maxiter hs hm hk) as (r' & e' & h' & _ & hst' & hb' & _).
  exists r, r'. split; [auto|]. split; [auto|].
  split; [destruct h|destruct h']; unfold steepest_sil; auto 12.
Qed.
Print Assumptions C28_steepest_descent.
Definition C28_case := C28_steepest_descent (Lt := Q) m6 6 d6 [0; 1; 3] 10 m6_diss s63 k63 le23.
Definition C28_case_k2 := C28_steepest_descent (Lt := Q) m6 6 d6 [0; 1] 10 m6_diss s62 k62 (le_n 2).

(** ... and each iteration does the swap with the largest result: allowing one more iteration
    either changes nothing, the medoids being a local optimum, or does the best swap. *)
Definition best_sil_swap (n : nat) (v : diss) (med med' : list nat) : Prop :=
  (med' = med /\ sil_optimal v n med) \/
  exists b j, b < length med /\ j < n /\ ~ In j med /\ med' = swap med b j /\
    (med_sil v n med < med_sil v n med')%Q /\
    forall b' j', b' < length med -> j' < n -> ~ In j' med ->
      (med_sil v n (swap med b' j') <= med_sil v n med')%Q.

Theorem C28_best_swap {Nt Lt : Type} `{HLL : LossLaws Nt Lt} `{HAL : !AddLaws Nt} `{HDL : !DivLaws Nt Lt}
    (M : Mat Nt) n D med m :
  diss_matrix M n D -> sizes n (length med) -> medoids n (length med) med -> 2 <= length med ->
  exists r r' q q' : pam_result Lt,
    fastmsc M med m = Ok r /\ fastmsc M med (S m) = Ok r' /\
    pammedsil_swap M med m = Ok q /\ pammedsil_swap M med (S m) = Ok q' /\
    best_sil_swap n (vals D) (r_med r) (r_med r') /\ best_sil_swap n (vals D) (r_med q) (r_med q').
Proof.
  intros hd hs hm hk.
  destruct (fastmsc_all (Lt := Lt) hd m hs hm hk) as (r & e & _).
  destruct (fastmsc_all (Lt := Lt) hd (S m) hs hm hk) as (r' & e' & _).
  destruct (pammedsil_swap_all (Lt := Lt) hd m hs hm hk) as (q & f & _).
  destruct (pammedsil_swap_all (Lt := Lt) hd (S m) hs hm hk) as (q' & f' & _).
  exists r, r', q, q'. split; [auto|]. split; [auto|]. split; [auto|]. split; [auto|].
  assert (hn : 1 <= n) by (destruct hs; lia).
  destruct (fastmsc_next hd m hs hm hk e e') as (c & h1 & h2).
  destruct (pammedsil_swap_next hd m hs hm hk f f') as (c' & h1' & h2').
  split; [exact (choice_move _ hn h1 h2)|exact (choice_move _ hn h1' h2')].
Qed.
Print Assumptions C28_best_swap.
Definition C28_best_case := C28_best_swap (Lt := Q) m6 6 d6 [0; 1; 3] 0 m6_diss s63 k63 le23.

(** C29.  No panic for valid sizes and medoids in range, whatever the numbers: NaN, infinities,
    negative dissimilarities, rounding. *)
Theorem C29_msc_no_panic {Nt Lt : Type} `{HN : NumN Nt} `{HL : NumL Lt} `{HF : FromN Nt Lt}
    (M : Mat Nt) n D med maxiter :
  is_matrix M n D -> sizes n (length med) -> (forall m, In m med -> m < n) ->
  lltb (lzero : Lt) lzero = false ->
  returns n (fastermsc (Lt := Lt) M med maxiter) (length med) /\
  returns n (pammedsil_swap (Lt := Lt) M med maxiter) (length med) /\
  (length med <> 2 -> returns n (fastmsc (Lt := Lt) M med maxiter) (length med)).
Proof.
  intros hm hs hin hz. split; [|split].
  - apply (fastermsc_returns hm); auto.
  - apply (pammedsil_swap_returns hm); auto.
  - intros hne. apply (fastmsc_returns hm); auto. congruence.
Qed.
Print Assumptions C29_msc_no_panic.
Definition C29_case := C29_msc_no_panic (Lt := f64) mf 4 df [3; 1; 3] 10 mf_matrix s43 i43 eq_refl.
Definition C29_case_k2 := C29_msc_no_panic (Lt := f64) mf 4 df [0; 1] 10 mf_matrix s42 i42 eq_refl.

(** FastMSC with two medoids: under a zero diagonal *)
Theorem C29_fastmsc_k2_no_panic {Nt Lt : Type} `{HN : NumN Nt} `{HL : NumL Lt} `{HF : FromN Nt Lt}
    (M : Mat Nt) n D med maxiter :
  is_matrix M n D -> sizes n (length med) -> (forall m, In m med -> m < n) ->
  (forall x, x < n -> D x x = nzero) ->
  lltb (lzero : Lt) lzero = false -> nis_zero (nzero : Nt) = true -> lltb (lzero : Lt) (ladd lzero lzero) = false ->
  returns n (fastmsc (Lt := Lt) M med maxiter) (length med).
Proof. intros hm hs hin hg h1 h2 h3. apply (fastmsc_returns hm); auto. Qed.
Print Assumptions C29_fastmsc_k2_no_panic.

Definition rowsg : list (list f64) :=
  [[fz 0; fnan; fz (-2); fz 1]; [fz 1; fz 0; finf; fz 2]; [fnan; fz 2; fz 0; fz 7]; [fz 1; fz 1; fz 4; fz 0]].
Definition dg (x y : nat) : f64 := nth y (nth x rowsg []) fnan.
Lemma mg_matrix : is_matrix (mat_of_rows rowsg) 4 dg.
Proof.
  split; [reflexivity|]. split; [reflexivity|].
  intros x y hx hy. do 4 (destruct x as [|x]; [do 4 (destruct y as [|y]; [reflexivity|]); lia|]). lia.
Qed.
Lemma mg_diag x : x < 4 -> dg x x = nzero.
Proof. intros hx. do 4 (destruct x as [|x]; [reflexivity|]). lia. Qed.
Definition C29_fastmsc_case := C29_fastmsc_k2_no_panic (Lt := f64) (mat_of_rows rowsg) 4 dg [0; 1] 10
  mg_matrix s42 i42 mg_diag eq_refl eq_refl eq_refl.

(** With a non-zero diagonal FastMSC may panic for k = 2: both objects are medoids, no candidate
    is evaluated, the initial best loss 0 is below the loss. *)
Theorem C29_fastmsc_nonzero_diagonal_refuted : exists (M : Mat Z) D, is_matrix M 2 D /\ medoids 2 2 [0; 1] /\
  fastmsc (Lt := Q) M [0; 1] 10 = Panic P_assert.
Proof.
  exists (mat_of_rows [[1; 2]; [2; 1]]%Z), (entries [[1; 2]; [2; 1]]%Z).
  split; [apply rows_matrix; [lia|reflexivity]|]. split; [apply meds_ok; reflexivity|].
  vm_compute. reflexivity.
Qed.
Print Assumptions C29_fastmsc_nonzero_diagonal_refuted.
