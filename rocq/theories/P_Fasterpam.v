(** P_Fasterpam.v -- properties C01 to C08 and C12: fasterpam and rand_fasterpam.
    Every theorem is followed by a concrete input which meets its hypotheses. *)
From Coq Require Import ZArith QArith Lqa Lia Permutation.
From Verif Require Import Base Num M_Mat M_Util M_Fasterpam Inst Hoare Spec Laws PamShape FpFacts FpMain Ex.
Open Scope nat_scope.

(** C01.  The reported loss is the cost of the returned clustering. *)
Theorem C01_fasterpam_loss {Nt Lt : Type} `{HLL : LossLaws Nt Lt} (M : Mat Nt) n D med maxiter :
  diss_matrix M n D -> sizes n (length med) -> medoids n (length med) med ->
  2 <= length med \/ symmetric n (vals D) ->
  exists r : pam_result Lt, fasterpam M med maxiter = Ok r /\
    (vL (r_loss r) == assigned_cost (vals D) n (r_med r) (r_assi r))%Q /\
    (vL (r_loss r) == tdev (vals D) n (r_med r))%Q.
Proof.
  intros hd hs hm hk. destruct (fasterpam_all hd maxiter hs hm) as (r & e & h). exists r.
  split; [exact e|]. rewrite (nearest_cost (r_assi r) (fa_nearest h)). split; apply (fa_loss h); exact hk.
Qed.
Print Assumptions C01_fasterpam_loss.

Definition C01_case := C01_fasterpam_loss (Lt := Z) m6 6 d6 [0; 1; 3] 10 m6_diss s63 k63 (or_introl (le_S _ _ (le_n 2))).
Definition C01_case_k1 := C01_fasterpam_loss (Lt := Z) m5 5 d5 [1] 10 m5_diss s51 k51 (or_intror m5_sym).
Example C01_value : fasterpam (Lt := Z) m6 [0; 1; 3] 10 = Ok (mkPR 1%Z [1; 1; 0; 2; 0; 0] 2 2 [4; 1; 3]).
Proof. vm_compute. reflexivity. Qed.

(** C01 fails for k = 1 and an asymmetric matrix: the loss is a row sum, not the sum of the
    dissimilarities to the medoid. *)
Theorem C01_single_asymmetric_refuted : exists rows r, rows_ok 2 rows = true /\
  fasterpam (Lt := Z) (mat_of_rows rows) [0] 10 = Ok r /\
  ~ (vL (r_loss r) == assigned_cost (vals (entries rows)) 2 (r_med r) (r_assi r))%Q.
Proof.
  exists [[0; 1]; [3; 0]]%Z, (mkPR 1%Z [0; 0] 1 0 [0]). split; [reflexivity|].
  split; [vm_compute; reflexivity|]. vm_compute. discriminate.
Qed.
Print Assumptions C01_single_asymmetric_refuted.

(** C02.  Every object is assigned to a nearest medoid. *)
Theorem C02_fasterpam_nearest {Nt Lt : Type} `{HLL : LossLaws Nt Lt} (M : Mat Nt) n D med maxiter :
  diss_matrix M n D -> sizes n (length med) -> medoids n (length med) med ->
  exists r : pam_result Lt, fasterpam M med maxiter = Ok r /\ length (r_assi r) = n /\
    forall o, o < n -> nth o (r_assi r) 0 < length med /\
      forall c, c < length med ->
        (vals D o (nth (nth o (r_assi r) 0%nat) (r_med r) 0%nat) <= vals D o (nth c (r_med r) 0%nat))%Q.
Proof.
  intros hd hs hm. destruct (fasterpam_all hd maxiter hs hm) as (r & e & h). exists r.
  split; [exact e|]. split; [exact (fa_assi_len h)|].
  rewrite <- (proj1 (fa_medoids h)). exact (fa_nearest h).
Qed.
Print Assumptions C02_fasterpam_nearest.

Definition C02_case := C02_fasterpam_nearest (Lt := Z) m6 6 d6 [0; 1; 3] 10 m6_diss s63 k63.

(** C03.  k distinct valid medoids. *)
Theorem C03_fasterpam_medoids {Nt Lt : Type} `{HLL : LossLaws Nt Lt} (M : Mat Nt) n D med maxiter :
  diss_matrix M n D -> sizes n (length med) -> medoids n (length med) med ->
  exists r : pam_result Lt, fasterpam M med maxiter = Ok r /\
    length (r_med r) = length med /\ NoDup (r_med r) /\ forall m, In m (r_med r) -> m < n.
Proof.
  intros hd hs hm. destruct (fasterpam_all hd maxiter hs hm) as (r & e & h). exists r.
  split; [exact e|]. exact (fa_medoids h).
Qed.
Print Assumptions C03_fasterpam_medoids.

Definition C03_case := C03_fasterpam_medoids (Lt := Z) m6 6 d6 [0; 1; 3] 10 m6_diss s63 k63.

(** C03 needs the zero diagonal: otherwise two medoids can become equal. *)
Theorem C03_nonzero_diagonal_refuted : exists rows med r, meds_b 3 3 med = true /\
  square_b 3 rows = true /\ fasterpam (Lt := Z) (mat_of_rows rows) med 10 = Ok r /\ ~ NoDup (r_med r).
Proof.
  exists [[3; 1; 3]; [0; 0; 2]; [3; 0; 2]]%Z, [0; 1; 2], (mkPR 0%Z [2; 1; 1] 2 1 [0; 1; 0]).
  split; [reflexivity|]. split; [reflexivity|]. split; [vm_compute; reflexivity|].
  intros h. inversion h as [|x l h1 h2]. apply h1. simpl. auto.
Qed.
Print Assumptions C03_nonzero_diagonal_refuted.

(** C04.  No empty clusters: every medoid is in its own cluster. *)
Theorem C04_fasterpam_own_cluster {Nt Lt : Type} `{HLL : LossLaws Nt Lt} (M : Mat Nt) n D med maxiter :
  diss_matrix M n D -> sizes n (length med) -> medoids n (length med) med ->
  exists r : pam_result Lt, fasterpam M med maxiter = Ok r /\
    (forall c, c < length med -> nth c (r_med r) 0 < n /\ nth (nth c (r_med r) 0) (r_assi r) 0 = c) /\
    (length med = 1 -> r_assi r = repeat 0 n).
Proof.
  intros hd hs hm. destruct (fasterpam_all hd maxiter hs hm) as (r & e & h). exists r.
  split; [exact e|]. split; [|exact (fa_one h)].
  destruct (fa_medoids h) as (h1 & _ & h2). intros c hc.
  split; [apply h2, nth_In; lia|].
  destruct (Nat.eq_dec (length med) 1) as [e1|e1]; [|apply (fa_own h); [destruct hs; lia|exact hc]].
  rewrite (fa_one h e1). replace c with 0 by lia. apply nth_repeat.
Qed.
Print Assumptions C04_fasterpam_own_cluster.

(** objects 0 and 1 coincide, as do 4 and 5 *)
Definition C04_case := C04_fasterpam_own_cluster (Lt := Z) m6 6 d6 [0; 1; 3] 10 m6_diss s63 k63.

(** C05.  Never worse than the start; every counted swap was a strict improvement. *)
Theorem C05_fasterpam_monotone {Nt Lt : Type} `{HLL : LossLaws Nt Lt} (M : Mat Nt) n D med maxiter :
  diss_matrix M n D -> sizes n (length med) -> medoids n (length med) med ->
  2 <= length med \/ symmetric n (vals D) ->
  exists r : pam_result Lt, fasterpam M med maxiter = Ok r /\
    (vL (r_loss r) <= tdev (vals D) n med)%Q /\
    (0 < r_swaps r -> (vL (r_loss r) < tdev (vals D) n med)%Q) /\
    (r_swaps r = 0 -> r_med r = med).
Proof.
  intros hd hs hm hk. destruct (fasterpam_all hd maxiter hs hm) as (r & e & h). exists r.
  split; [exact e|]. rewrite (fa_loss h hk).
  split; [exact (fa_obj h hk)|]. split; [exact (fa_strict h hk)|exact (fa_same h)].
Qed.
Print Assumptions C05_fasterpam_monotone.

Definition C05_case := C05_fasterpam_monotone (Lt := Z) m6 6 d6 [0; 1; 3] 10 m6_diss s63 k63 (or_introl (le_S _ _ (le_n 2))).

(** C06.  The counters, for all number types (no laws at all). *)
Theorem C06_fasterpam_counters {Nt Lt : Type} `{HN : NumN Nt} `{HL : NumL Lt} `{HF : FromN Nt Lt}
    (M : Mat Nt) n D med maxiter :
  is_matrix M n D -> sizes n (length med) -> (forall m, In m med -> m < n) -> 2 <= length med ->
  exists r : pam_result Lt, fasterpam M med maxiter = Ok r /\
    r_iter r <= maxiter /\ r_swaps r <= n * r_iter r /\
    (maxiter = 0 -> r_med r = med /\ r_swaps r = 0 /\ r_iter r = 0).
Proof. exact (@fasterpam_counters _ _ HN HL HF M n D med maxiter). Qed.
Print Assumptions C06_fasterpam_counters.

(** NaN, infinity, negative entries, non-zero diagonal *)
Definition C06_case := C06_fasterpam_counters (Lt := f64) mf 4 df [0; 1] 10 mf_matrix s42 i42 (le_n 2).

(** C07.  Local optimum when it stops before maxiter. *)
Theorem C07_fasterpam_local_optimum {Nt Lt : Type} `{HLL : LossLaws Nt Lt} (M : Mat Nt) n D med maxiter :
  diss_matrix M n D -> sizes n (length med) -> medoids n (length med) med ->
  2 <= length med \/ symmetric n (vals D) ->
  exists r : pam_result Lt, fasterpam M med maxiter = Ok r /\
    (r_iter r < maxiter -> forall b j, b < length med -> j < n ->
       (vL (r_loss r) <= tdev (vals D) n (swap (r_med r) b j))%Q).
Proof.
  intros hd hs hm hk. destruct (fasterpam_all hd maxiter hs hm) as (r & e & h). exists r.
  split; [exact e|]. intros hlt b j hb hj. rewrite (fa_loss h hk).
  apply (fa_opt h hk hlt (Permutation_refl _)); [rewrite (proj1 (fa_medoids h))|]; assumption.
Qed.
Print Assumptions C07_fasterpam_local_optimum.

Definition C07_case := C07_fasterpam_local_optimum (Lt := Z) m6 6 d6 [0; 1; 3] 10 m6_diss s63 k63 (or_introl (le_S _ _ (le_n 2))).
(** in this case the run stops after 2 of 10 iterations, see [C01_value] *)

(** C08.  Convergence: fewer than n^k swaps, and more than n^k iterations are never needed. *)
Theorem C08_fasterpam_converges {Nt Lt : Type} `{HLL : LossLaws Nt Lt} (M : Mat Nt) n D med maxiter :
  diss_matrix M n D -> sizes n (length med) -> medoids n (length med) med ->
  2 <= length med \/ symmetric n (vals D) ->
  exists r : pam_result Lt, fasterpam M med maxiter = Ok r /\
    r_swaps r < n ^ length med /\
    (n ^ length med < maxiter -> r_iter r < maxiter /\ swap_optimal (vals D) n (r_med r)) /\
    (integral n (vals D) ->
       (inject_Z (Z.of_nat (r_swaps r)) + vL (r_loss r) <= tdev (vals D) n med)%Q).
Proof.
  intros hd hs hm hk. destruct (fasterpam_all hd maxiter hs hm) as (r & e & h). exists r.
  split; [exact e|]. pose proof (fa_bound h) as hb. pose proof (fa_iterswap h) as hi.
  split; [exact hb|]. split.
  - intros hmi. assert (hlt : r_iter r < maxiter) by lia. split; [exact hlt|].
    exact (fa_opt h hk hlt (Permutation_refl _)).
  - intros hint. rewrite (fa_loss h hk). exact (fa_int h hk hint).
Qed.
Print Assumptions C08_fasterpam_converges.

Definition C08_case := C08_fasterpam_converges (Lt := Z) m6 6 d6 [0; 1; 3] 300 m6_diss s63 k63 (or_introl (le_S _ _ (le_n 2))).

(** C12.  rand_fasterpam: the same for every processing order. *)
Theorem C12_rand_fasterpam {Nt Lt : Type} `{HLL : LossLaws Nt Lt} (M : Mat Nt) n D order med maxiter :
  diss_matrix M n D -> sizes n (length med) -> medoids n (length med) med ->
  2 <= length med \/ symmetric n (vals D) -> Permutation order (seq 0 n) ->
  exists r : pam_result Lt, rand_fasterpam M order med maxiter = Ok r /\
    medoids n (length med) (r_med r) /\
    length (r_assi r) = n /\ (forall o, o < n -> nearest (vals D) o (r_med r) (nth o (r_assi r) 0)) /\
    (2 <= length med -> forall c, c < length med -> nth (nth c (r_med r) 0) (r_assi r) 0 = c) /\
    (vL (r_loss r) == assigned_cost (vals D) n (r_med r) (r_assi r))%Q /\
    (vL (r_loss r) == tdev (vals D) n (r_med r))%Q /\
    (vL (r_loss r) <= tdev (vals D) n med)%Q /\
    (0 < r_swaps r -> (vL (r_loss r) < tdev (vals D) n med)%Q) /\
    (r_swaps r = 0 -> r_med r = med) /\
    r_swaps r < n ^ length med /\ r_iter r <= S (r_swaps r) /\ r_iter r <= Nat.max 1 maxiter /\
    (r_iter r < maxiter -> swap_optimal (vals D) n (r_med r)).
Proof.
  intros hd hs hm hk hp.
  assert (hnd : NoDup order) by (apply (Permutation_NoDup (Permutation_sym hp)), seq_NoDup).
  assert (ho : forall j, In j order -> j < n).
  { intros j hj. apply (Permutation_in _ hp) in hj. apply in_seq in hj. lia. }
  destruct (rand_fasterpam_all hd maxiter hs hm hnd ho) as (r & e & h). exists r.
  rewrite (nearest_cost (r_assi r) (fa_nearest h)), (fa_loss h hk).
  pose proof (fa_iter h) as hi.
  refine (conj e (conj (fa_medoids h) (conj (fa_assi_len h) (conj (fa_nearest h) (conj (fa_own h)
    (conj (Qeq_refl _) (conj (Qeq_refl _) (conj (fa_obj h hk) (conj (fa_strict h hk) (conj (fa_same h)
    (conj (fa_bound h) (conj (fa_iterswap h) (conj _ (fun hlt => fa_opt h hk hlt hp)))))))))))))).
  destruct (length med =? 1); lia.
Qed.
Print Assumptions C12_rand_fasterpam.

Lemma perm6 : Permutation [3; 5; 0; 1; 4; 2] (seq 0 6).
Proof.
  apply NoDup_Permutation; [|apply seq_NoDup|].
  - repeat constructor; simpl; lia.
  - intros x. rewrite in_seq. simpl. lia.
Qed.
Definition C12_case := C12_rand_fasterpam (Lt := Z) m6 6 d6 [3; 5; 0; 1; 4; 2] [0; 1; 3] 10 m6_diss s63 k63
  (or_introl (le_S _ _ (le_n 2))) perm6.

(** With the identity order it is fasterpam, in every number type. *)
Theorem C12_identity_order {Nt Lt : Type} `{HN : NumN Nt} `{HL : NumL Lt} `{HF : FromN Nt Lt}
    (M : Mat Nt) med maxiter :
  rand_fasterpam (Lt := Lt) M (seq 0 (mlen M)) med maxiter = fasterpam M med maxiter.
Proof. reflexivity. Qed.
Print Assumptions C12_identity_order.
