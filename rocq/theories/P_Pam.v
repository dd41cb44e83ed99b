(** P_Pam.v -- properties C09 to C11 and C13 to C19: the other algorithms of the PAM family.
    Every theorem is followed by a concrete input which meets its hypotheses. *)
From Coq Require Import ZArith QArith Lqa Lia Permutation.
From Verif Require Import Base Num M_Mat M_Util M_Fasterpam M_Pam M_Alternating M_ParFasterpam Inst Hoare Spec
  Laws Reference LocalSearch PamShape FpFacts ChooseFacts PamFacts BuildFacts AltFacts ParFacts FpMain PamMain Ex.
Open Scope nat_scope.

Definition le22 : 2 <= 2 := le_n 2.
Definition le23 : 2 <= 3 := le_S _ _ (le_n 2).

(** C09.  No panic on valid input, in any number type: only the shape of the matrix, the sizes
    and the range of the medoids matter.  [0 < 0] must be false. *)
Definition good_return {Lt} (n k : nat) (m : res (pam_result Lt)) : Prop :=
  exists r, m = Ok r /\ length (r_med r) = k /\ (forall x, In x (r_med r) -> x < n) /\
    length (r_assi r) = n /\ forall o, o < n -> nth o (r_assi r) 0 < k.

Theorem C09_no_panic {Nt Lt : Type} `{HN : NumN Nt} `{HL : NumL Lt} `{HF : FromN Nt Lt}
    (M : Mat Nt) n D med maxiter order orc :
  is_matrix M n D -> sizes n (length med) -> (forall m, In m med -> m < n) ->
  (forall j, In j order -> j < n) -> lltb (lzero : Lt) lzero = false ->
  let k := length med in
  good_return n k (fasterpam (Lt := Lt) M med maxiter) /\
  good_return n k (rand_fasterpam (Lt := Lt) M order med maxiter) /\
  good_return n k (par_fasterpam (Lt := Lt) M orc order med maxiter) /\
  good_return n k (fastpam1 (Lt := Lt) M med maxiter) /\
  good_return n k (pam_swap (Lt := Lt) M med maxiter) /\
  good_return n k (alternating (Lt := Lt) M med maxiter).
Proof. intros hm hs hin ho hz. exact (pam_family_returns hm hz maxiter order orc hs hin ho). Qed.
Print Assumptions C09_no_panic.

Definition C09_case := C09_no_panic (Lt := f64) mf 4 df [3; 1; 3] 10 [2; 0] (mkOracle (RSplit 2 RSeq RSeq)
  (fun _ _ => mkSched 2 [1; 0]) (fun _ _ => RSeq)) mf_matrix s43 i43 (fun j h => ltac:(simpl in h; lia)) eq_refl.

Theorem C09_pam_no_panic {Nt Lt : Type} `{HN : NumN Nt} `{HL : NumL Lt} `{HF : FromN Nt Lt}
    (M : Mat Nt) n D k maxiter :
  is_matrix M n D -> sizes n k -> lltb (lzero : Lt) lzero = false ->
  (exists r : pam_result Lt, pam M k maxiter = Ok r /\
     1 <= length (r_med r) <= k /\ (forall m, In m (r_med r) -> m < n) /\
     length (r_assi r) = n /\ forall a, In a (r_assi r) -> a < length (r_med r)) /\
  (exists (loss : Lt) assi meds, pam_build M k = Ok (loss, assi, meds) /\
     1 <= length meds <= k /\ (forall m, In m meds -> m < n) /\
     length assi = n /\ forall a, In a assi -> a < length meds).
Proof.
  intros hm hs hz. split.
  - pose proof (pam_shape hm hz maxiter hs) as h. apply oks_inv in h as (r & e & h). exists r. tauto.
  - pose proof (pam_build_shape (Lt := Lt) hm hs) as h. apply oks_inv in h as ([[l a] ms] & e & h).
    exists l, a, ms. tauto.
Qed.
Print Assumptions C09_pam_no_panic.

Definition C09_pam_case := C09_pam_no_panic (Lt := f64) mf 4 df 3 10 mf_matrix s43 eq_refl.

(** C10.  The documented panics: matrix not square, k = 0, k > n, with their messages; and those for
    sizes which do not fit u32. *)
Definition rejected {Nt} (M : Mat Nt) (k : nat) (p : panic) : Prop :=
  (p = P_not_square /\ msquare M = Ok false) \/
  (p = P_n_too_large /\ msquare M = Ok true /\ (4294967295 < N.of_nat (mlen M))%N) \/
  (p = P_invalid_k /\ msquare M = Ok true /\ (N.of_nat (mlen M) <= 4294967295)%N /\
     (k = 0 \/ (4294967295 <= N.of_nat k)%N)) \/
  (p = P_k_gt_n /\ msquare M = Ok true /\ (N.of_nat (mlen M) <= 4294967295)%N /\
     mlen M < k /\ (N.of_nat k < 4294967295)%N).

Theorem C10_panics {Nt Lt : Type} `{HN : NumN Nt} `{HL : NumL Lt} `{HF : FromN Nt Lt}
    (M : Mat Nt) med maxiter order orc p :
  rejected M (length med) p ->
  (length med <> 1 ->
     fasterpam (Lt := Lt) M med maxiter = Panic p /\
     rand_fasterpam (Lt := Lt) M order med maxiter = Panic p /\
     par_fasterpam (Lt := Lt) M orc order med maxiter = Panic p /\
     fastpam1 (Lt := Lt) M med maxiter = Panic p) /\
  pam_swap (Lt := Lt) M med maxiter = Panic p /\
  alternating (Lt := Lt) M med maxiter = Panic p.
Proof. exact (@pam_family_rejects _ _ HN HL HF M med maxiter order orc p). Qed.
Print Assumptions C10_panics.

Theorem C10_pam_panics {Nt Lt : Type} `{HN : NumN Nt} `{HL : NumL Lt} `{HF : FromN Nt Lt}
    (M : Mat Nt) k maxiter p :
  rejected M k p -> pam (Lt := Lt) M k maxiter = Panic p /\ pam_build (Lt := Lt) M k = Panic p.
Proof. exact (@pam_rejects _ _ HN HL HF M k maxiter p). Qed.
Print Assumptions C10_pam_panics.

(** Conversely a result is only ever returned for valid sizes. *)
Theorem C10_result_valid {Nt Lt : Type} `{HN : NumN Nt} `{HL : NumL Lt} `{HF : FromN Nt Lt}
    (M : Mat Nt) med maxiter order orc (r : pam_result Lt) :
  (length med <> 1 /\
    (fasterpam M med maxiter = Ok r \/ rand_fasterpam M order med maxiter = Ok r \/
     par_fasterpam M orc order med maxiter = Ok r \/ fastpam1 M med maxiter = Ok r)) \/
  pam_swap M med maxiter = Ok r \/ alternating M med maxiter = Ok r ->
  msquare M = Ok true /\ sizes (mlen M) (length med).
Proof. exact (@pam_family_valid _ _ HN HL HF M med maxiter order orc r). Qed.
Print Assumptions C10_result_valid.

Definition wide : Mat Z := mat_of_array2 (mkArray2 2 3 [0; 1; 2; 1; 0; 3]%Z).
Definition C10_case := C10_panics (Lt := Z) wide [0; 1] 10 [] (mkOracle RSeq (fun _ _ => mkSched 1 []) (fun _ _ => RSeq))
  P_not_square (or_introl (conj eq_refl eq_refl)).
Example C10_k_gt_n : rejected m5 7 P_k_gt_n.
Proof. right. right. right. vm_compute. repeat split; try discriminate; auto. Qed.
Example C10_k_zero : rejected m5 0 P_invalid_k.
Proof. right. right. left. vm_compute. repeat split; try discriminate. left. reflexivity. Qed.

(** For k = 1 the variants which take the medoids check nothing: no panic on a matrix which is
    not square, nor for a medoid which does not exist in an empty matrix... *)
Theorem C10_single_not_square_refuted : exists (M : Mat Z) r r2, msquare M = Ok false /\
  fasterpam (Lt := Z) M [0] 10 = Ok r /\ fastpam1 (Lt := Z) M [0] 10 = Ok r2.
Proof.
  exists (mat_of_array2 (mkArray2 1 2 [0; 1]%Z)), (mkPR 0%Z [0] 1 0 [0]), (mkPR 0%Z [0] 1 0 [0]).
  repeat split; vm_compute; reflexivity.
Qed.
Print Assumptions C10_single_not_square_refuted.

Theorem C10_single_k_gt_n_refuted : exists (M : Mat Z) r, mlen M = 0 /\ msquare M = Ok true /\
  fasterpam (Lt := Z) M [0] 10 = Ok r.
Proof.
  exists (mat_of_array2 (mkArray2 0 0 []%Z)). eexists. split; [reflexivity|]. split; [reflexivity|].
  vm_compute. reflexivity.
Qed.
Print Assumptions C10_single_k_gt_n_refuted.

(** C11.  k = 1: the best single medoid; [x] itself, or else the first one, if there are several. *)
Definition best_single {Nt Lt} `{HLL : LossLaws Nt Lt} (n : nat) (v : diss) (x : nat) (m : res (pam_result Lt)) : Prop :=
  exists r best, m = Ok r /\ r_med r = [best] /\ best < n /\
    (forall j, j < n -> (row_total v n best <= row_total v n j)%Q) /\
    (vL (r_loss r) == row_total v n best)%Q /\
    r_assi r = repeat 0 n /\ r_iter r = 1 /\
    (r_swaps r = if best =? x then 0 else 1) /\
    best = first_best (fun a b => Qlt_bool (row_total v n a) (row_total v n b)) (seq 0 n) x.

Theorem C11_single_medoid {Nt Lt : Type} `{HLL : LossLaws Nt Lt} (M : Mat Nt) n D x maxiter order orc :
  diss_matrix M n D -> sizes n 1 -> x < n ->
  best_single (Lt := Lt) n (vals D) x (fasterpam M [x] maxiter) /\
  best_single (Lt := Lt) n (vals D) x (rand_fasterpam M order [x] maxiter) /\
  best_single (Lt := Lt) n (vals D) x (par_fasterpam M orc order [x] maxiter) /\
  best_single (Lt := Lt) n (vals D) x (fastpam1 M [x] maxiter) /\
  best_single (Lt := Lt) n (vals D) x (pam_swap M [x] maxiter).
Proof.
  intros hd hs hx.
  destruct (single_all (Lt := Lt) (proj1 hd) maxiter order orc hs hx) as (-> & -> & -> & -> & ->).
  assert (h : best_single (Lt := Lt) n (vals D) x (single_medoid M [x])); [|auto 10].
  pose proof (single_medoid_ok (Lt := Lt) hd (med := [x]) eq_refl) as h.
  assert (hin : inr n [x]) by (intros m [<-|[]]; auto). specialize (h hin).
  apply oks_inv in h as (r & e & h1 & h2 & best & h3 & h4 & h5 & h6 & _ & h7 & h8).
  exists r, best. auto 12.
Qed.
Print Assumptions C11_single_medoid.

Definition C11_case := C11_single_medoid (Lt := Z) m6 6 d6 1 10 [] (mkOracle RSeq (fun _ _ => mkSched 1 []) (fun _ _ => RSeq))
  m6_diss (sizes_ok 6 1 eq_refl) (le_S _ _ (le_S _ _ (le_S _ _ (le_S _ _ (le_n 2))))).

(** C13.  par_fasterpam returns what rand_fasterpam returns with the same order of the
    candidates: for every splitting into tasks ([s_parts] of them, merged in the order [s_order])
    in every search, and every way to bracket the parallel sums. *)
Definition valid_oracle (orc : oracle) : Prop := forall i j,
  1 <= s_parts (o_find orc i j) /\ Permutation (s_order (o_find orc i j)) (seq 0 (s_parts (o_find orc i j))).

Theorem C13_schedule_independent {Nt Lt : Type} `{HLL : LossLaws Nt Lt} (M : Mat Nt) n D orc order med maxiter :
  diss_matrix M n D -> sizes n (length med) -> medoids n (length med) med ->
  (forall j, In j order -> j < n) -> valid_oracle orc ->
  exists r r' : pam_result Lt,
    rand_fasterpam M order med maxiter = Ok r /\ par_fasterpam M orc order med maxiter = Ok r' /\
    r_med r = r_med r' /\ r_assi r = r_assi r' /\ r_iter r = r_iter r' /\ r_swaps r = r_swaps r' /\
    (vL (r_loss r) == vL (r_loss r'))%Q.
Proof. intros hd hs hm ho hor. exact (par_fasterpam_rand hd order maxiter hs hm ho hor). Qed.
Print Assumptions C13_schedule_independent.

(** For integers the results are identical. *)
Theorem C13_integers (M : Mat Z) n D orc order med maxiter :
  diss_matrix M n D -> sizes n (length med) -> medoids n (length med) med ->
  (forall j, In j order -> j < n) -> valid_oracle orc ->
  par_fasterpam (Lt := Z) M orc order med maxiter = rand_fasterpam (Lt := Z) M order med maxiter.
Proof.
  intros hd hs hm ho hor.
  destruct (C13_schedule_independent (Lt := Z) M n D orc order med maxiter hd hs hm ho hor)
    as (r & r' & -> & -> & h1 & h2 & h3 & h4 & h5).
  f_equal. destruct r, r'. cbn in *. subst. f_equal. symmetry. unfold Qeq, inject_Z in h5. simpl in h5. lia.
Qed.
Print Assumptions C13_integers.

Definition orc2 : oracle :=
  mkOracle (RSplit 2 (RSplit 1 RSeq RSeq) (RSplit 3 RSeq RSeq))
    (fun _ _ => mkSched 3 [2; 0; 1]) (fun _ _ => RSplit 3 (RSplit 1 RSeq RSeq) RSeq).
Lemma orc2_ok : valid_oracle orc2.
Proof.
  intros i j. split; [simpl; lia|]. simpl. apply NoDup_Permutation.
  - repeat constructor; simpl; lia.
  - repeat constructor; simpl; lia.
  - intros x. simpl. lia.
Qed.
Definition C13_case := C13_integers m6 6 d6 orc2 [3; 5; 0; 1; 4; 2] [0; 1; 3] 10 m6_diss s63 k63
  (fun j h => ltac:(simpl in h; lia)) orc2_ok.

(** C14.  FastPAM1 and PAM: consistent results ... *)
Theorem C14_steepest_descent {Nt Lt : Type} `{HLL : LossLaws Nt Lt} (M : Mat Nt) n D med maxiter :
  diss_matrix M n D -> sizes n (length med) -> medoids n (length med) med ->
  2 <= length med \/ symmetric n (vals D) ->
  exists r : pam_result Lt, fastpam1 M med maxiter = Ok r /\ pam_swap M med maxiter = Ok r /\
    medoids n (length med) (r_med r) /\
    length (r_assi r) = n /\ (forall o, o < n -> nearest (vals D) o (r_med r) (nth o (r_assi r) 0)) /\
    (2 <= length med -> forall c, c < length med -> nth (nth c (r_med r) 0) (r_assi r) 0 = c) /\
    (vL (r_loss r) == assigned_cost (vals D) n (r_med r) (r_assi r))%Q /\
    (vL (r_loss r) == tdev (vals D) n (r_med r))%Q /\
    (vL (r_loss r) <= tdev (vals D) n med)%Q /\
    (0 < r_swaps r -> (vL (r_loss r) < tdev (vals D) n med)%Q) /\
    (r_swaps r = 0 -> r_med r = med) /\
    (r_iter r = r_swaps r \/ r_iter r = S (r_swaps r)) /\ r_iter r <= Nat.max 1 maxiter /\
    r_swaps r < n ^ length med /\
    (r_iter r < maxiter -> swap_optimal (vals D) n (r_med r)) /\
    (2 <= length med -> (r_iter r = S (r_swaps r) /\ r_iter r <= maxiter /\ swap_optimal (vals D) n (r_med r)) \/
                        (r_iter r = r_swaps r /\ r_iter r = maxiter)).
Proof.
  intros hd hs hm hk. destruct (fastpam1_all (Lt := Lt) hd maxiter hs hm) as (r & e & e' & h). exists r.
  rewrite (nearest_cost (r_assi r) (sa_nearest h)), (sa_loss h hk).
  refine (conj e (conj e' (conj (sa_medoids h) (conj (sa_assi_len h) (conj (sa_nearest h) (conj (sa_own h)
    (conj (Qeq_refl _) (conj (Qeq_refl _) (conj (sa_obj h hk) (conj (sa_strict h hk) (conj (sa_same h)
    (conj (sa_count h) (conj (sa_iter h) (conj (sa_bound h) (conj (sa_opt h hk) (sa_end h)))))))))))))))).
Qed.
Print Assumptions C14_steepest_descent.

Definition C14_case := C14_steepest_descent (Lt := Z) m6 6 d6 [0; 1; 3] 10 m6_diss s63 k63 (or_introl le23).
Definition C14_case_k1 := C14_steepest_descent (Lt := Z) m5 5 d5 [1] 10 m5_diss s51 k51 (or_intror m5_sym).

(** ... and every iteration does the best of all swaps: allowing one more iteration either
    changes nothing, the medoids being swap-optimal, or does the swap with the smallest result. *)
Theorem C14_best_swap {Nt Lt : Type} `{HLL : LossLaws Nt Lt} (M : Mat Nt) n D med m :
  diss_matrix M n D -> sizes n (length med) -> medoids n (length med) med -> 2 <= length med ->
  exists r r' : pam_result Lt, fastpam1 M med m = Ok r /\ fastpam1 M med (S m) = Ok r' /\
    ((r_med r' = r_med r /\ swap_optimal (vals D) n (r_med r)) \/
     exists b j, b < length med /\ j < n /\ r_med r' = swap (r_med r) b j /\
       (tdev (vals D) n (r_med r') < tdev (vals D) n (r_med r))%Q /\
       forall b' j', b' < length med -> j' < n ->
         (tdev (vals D) n (r_med r') <= tdev (vals D) n (swap (r_med r) b' j'))%Q).
Proof.
  intros hd hs hm hk. destruct (fastpam1_all (Lt := Lt) hd m hs hm) as (r & e & _).
  destruct (fastpam1_all (Lt := Lt) hd (S m) hs hm) as (r' & e' & _). exists r, r'.
  split; [exact e|]. split; [exact e'|]. exact (fastpam1_steepest hd m hs hm hk e e').
Qed.
Print Assumptions C14_best_swap.

Definition C14_best_case := C14_best_swap (Lt := Z) m6 6 d6 [0; 1; 3] 0 m6_diss s63 k63 le23.

(** C15.  FastPAM1 yields the same results as PAM. *)
Theorem C15_fastpam1_is_pam {Nt Lt : Type} `{HLL : LossLaws Nt Lt} (M : Mat Nt) n D med maxiter :
  diss_matrix M n D -> sizes n (length med) -> medoids n (length med) med ->
  exists r : pam_result Lt, fastpam1 M med maxiter = Ok r /\ pam_swap M med maxiter = Ok r.
Proof.
  intros hd hs hm. destruct (fastpam1_all (Lt := Lt) hd maxiter hs hm) as (r & e & e' & _). exists r. auto.
Qed.
Print Assumptions C15_fastpam1_is_pam.

Definition C15_case := C15_fastpam1_is_pam (Lt := Z) m6 6 d6 [0; 1; 3] 10 m6_diss s63 k63.
Example C15_value : fastpam1 (Lt := Z) m6 [0; 1; 3] 10 = Ok (mkPR 1%Z [1; 1; 0; 2; 0; 0] 2 1 [4; 1; 3]).
Proof. vm_compute. reflexivity. Qed.

(** C16.  BUILD is greedy. *)
Theorem C16_pam_build {Nt Lt : Type} `{HLL : LossLaws Nt Lt} (M : Mat Nt) n D k :
  diss_matrix M n D -> sizes n k ->
  exists (loss : Lt) assi meds, pam_build M k = Ok (loss, assi, meds) /\
    1 <= length meds <= k /\ NoDup meds /\ (forall m, In m meds -> m < n) /\
    greedy (vals D) n meds /\
    (vL loss == tdev (vals D) n meds)%Q /\
    (vL loss == assigned_cost (vals D) n meds assi)%Q /\
    length assi = n /\ (forall o, o < n -> nearest (vals D) o meds (nth o assi 0)) /\
    (length meds < k -> (vL loss == 0)%Q).
Proof.
  intros hd hs. pose proof (pam_build_ok (Lt := Lt) hd hs) as h.
  apply oks_inv in h as ([[l a] ms] & e & h1 & (_ & h2 & h3) & h4 & h5 & h6 & h7 & h8 & _).
  exists l, a, ms. split; [auto|]. split; [auto|]. split; [auto|]. split; [auto|]. split; [auto|].
  split; [auto|]. rewrite (nearest_cost a h7). split; [auto|]. split; [auto|]. split; [auto|].
  intros hlt. destruct h8 as [h8|h8]; [lia|]. rewrite h5. exact h8.
Qed.
Print Assumptions C16_pam_build.

Definition C16_case := C16_pam_build (Lt := Z) m6 6 d6 3 m6_diss s63.
Example C16_value : pam_build (Lt := Z) m6 3 = Ok (1%Z, [1; 1; 2; 1; 0; 0], [5; 1; 2]).
Proof. vm_compute. reflexivity. Qed.

(** C17.  PAM is BUILD followed by SWAP. *)
Theorem C17_pam_is_build_swap {Nt Lt : Type} `{HLL : LossLaws Nt Lt} (M : Mat Nt) n D k maxiter :
  diss_matrix M n D -> sizes n k ->
  exists (r r' : pam_result Lt) loss assi meds, pam M k maxiter = Ok r /\
    pam_build M k = Ok (loss, assi, meds) /\ pam_swap M meds maxiter = Ok r' /\
    r_med r = r_med r' /\ r_assi r = r_assi r' /\ r_iter r = r_iter r' /\ r_swaps r = r_swaps r' /\
    (vL (r_loss r) == vL (r_loss r'))%Q /\
    (2 <= length meds \/ symmetric n (vals D) -> (vL (r_loss r) <= vL loss)%Q).
Proof.
  intros hd hs. pose proof (pam_build_swap hd maxiter hs) as h.
  apply oks_inv in h as (r & e & h). apply oks_inv in h as ([[l a] ms] & eb & h).
  apply oks_inv in h as (r' & e' & h1 & h2 & h3 & h4 & h5).
  exists r, r', l, a, ms. do 8 (split; [assumption|]). intros hk.
  pose proof (pam_build_ok (Lt := Lt) hd hs) as hb. apply oks_elim with (2 := eb) in hb.
  destruct hb as (q1 & q2 & _ & q4 & _).
  assert (hs' : sizes n (length ms)) by (destruct hs as (a1 & a2 & a3); split; [lia|split; [auto|lia]]).
  destruct (fastpam1_all (Lt := Lt) hd maxiter hs' q2) as (r2 & _ & e2 & hall).
  rewrite e' in e2. injection e2 as <-. rewrite h5, (sa_loss hall hk), q4. exact (sa_obj hall hk).
Qed.
Print Assumptions C17_pam_is_build_swap.

Definition C17_case := C17_pam_is_build_swap (Lt := Z) m6 6 d6 2 10 m6_diss s62.

(** C18.  Alternating: consistent clustering. *)
Theorem C18_alternating_consistent {Nt Lt : Type} `{HLL : LossLaws Nt Lt} (M : Mat Nt) n D med maxiter :
  diss_matrix M n D -> sizes n (length med) -> medoids n (length med) med ->
  exists r : pam_result Lt, alternating M med maxiter = Ok r /\
    medoids n (length med) (r_med r) /\
    length (r_assi r) = n /\ (forall o, o < n -> nearest (vals D) o (r_med r) (nth o (r_assi r) 0)) /\
    (forall c, c < length med -> nth (nth c (r_med r) 0) (r_assi r) 0 = c) /\
    (vL (r_loss r) == assigned_cost (vals D) n (r_med r) (r_assi r))%Q /\
    (vL (r_loss r) == tdev (vals D) n (r_med r))%Q /\
    r_iter r <= maxiter.
Proof.
  intros hd hs hm. pose proof (alternating_ok (Lt := Lt) hd maxiter hs hm) as h.
  apply oks_inv in h as (r & e & [h1 [h2 h3 h4 h5] h6 _ _ _]). exists r.
  rewrite (nearest_cost (r_assi r) h3). rewrite (proj1 h1) in h4. auto 10.
Qed.
Print Assumptions C18_alternating_consistent.

Definition C18_case := C18_alternating_consistent (Lt := Z) m6 6 d6 [0; 1; 3] 10 m6_diss s63 k63.

(** C19.  Alternating: monotone and convergent for symmetric matrices. *)
Theorem C19_alternating_monotone {Nt Lt : Type} `{HLL : LossLaws Nt Lt} (M : Mat Nt) n D med maxiter :
  diss_matrix M n D -> sizes n (length med) -> medoids n (length med) med -> symmetric n (vals D) ->
  exists r : pam_result Lt, alternating M med maxiter = Ok r /\
    (vL (r_loss r) <= tdev (vals D) n med)%Q /\
    r_iter r <= n ^ length med /\
    (n ^ length med < maxiter -> r_iter r < maxiter).
Proof.
  intros hd hs hm hsy. pose proof (alternating_ok (Lt := Lt) hd maxiter hs hm) as h.
  apply oks_inv in h as (r & e & [h1 [_ _ _ h2] _ h3 h4 _]). exists r. split; [auto|].
  split; [rewrite h2; auto|]. specialize (h4 hsy).
  pose proof (better_bound (tdev (vals D) n) med eq_refl (proj2 (proj2 hm))) as hb.
  assert (r_iter r <= n ^ length med) by lia. lia.
Qed.
Print Assumptions C19_alternating_monotone.

Definition C19_case := C19_alternating_monotone (Lt := Z) m5 5 d5 [0; 1] 10 m5_diss s52 k52 m5_sym.

(** When it stops early each medoid is optimal in its cluster, and another run changes nothing
    (this needs no symmetry). *)
Theorem C19_alternating_fixpoint {Nt Lt : Type} `{HLL : LossLaws Nt Lt} (M : Mat Nt) n D med maxiter :
  diss_matrix M n D -> sizes n (length med) -> medoids n (length med) med ->
  exists r : pam_result Lt, alternating M med maxiter = Ok r /\
    (r_iter r < maxiter ->
       (forall c j, c < length med -> j < n -> nth j (r_assi r) 0 = c ->
          (cluster_cost (vals D) n (r_assi r) c (nth c (r_med r) 0%nat) <= cluster_cost (vals D) n (r_assi r) c j)%Q) /\
       forall m, exists r', alternating (Lt := Lt) M (r_med r) (S m) = Ok r' /\
          r_med r' = r_med r /\ r_assi r' = r_assi r /\ r_loss r' = r_loss r /\ r_iter r' = 1).
Proof.
  intros hd hs hm. pose proof (alternating_ok (Lt := Lt) hd maxiter hs hm) as h.
  apply oks_inv in h as (r & e & [_ _ _ _ _ h]). exists r. split; [auto|]. intros hlt.
  destruct (h hlt) as [h1 h2]. split.
  - intros c j hc hj ha. apply h1; auto.
  - intros m. eexists. split; [apply h2|]. cbn. auto.
Qed.
Print Assumptions C19_alternating_fixpoint.

Definition C19_fix_case := C19_alternating_fixpoint (Lt := Z) m6 6 d6 [0; 1; 3] 10 m6_diss s63 k63.

(** Without symmetry the loss can increase ... *)
Theorem C19_asymmetric_refuted : exists rows med r0 r,
  rows_ok 3 rows = true /\ meds_b 3 2 med = true /\
  alternating (Lt := Z) (mat_of_rows rows) med 0 = Ok r0 /\
  alternating (Lt := Z) (mat_of_rows rows) med 10 = Ok r /\ (r_loss r0 < r_loss r)%Z.
Proof.
  exists [[0; 4; 3]; [2; 0; 4]; [2; 4; 0]]%Z, [0; 1], (mkPR 2%Z [0; 1; 0] 0 0 [0; 1]),
    (mkPR 3%Z [0; 1; 0] 2 0 [2; 1]).
  repeat split; vm_compute; reflexivity.
Qed.
Print Assumptions C19_asymmetric_refuted.

(** ... and it may never converge, whatever maxiter is. *)
Lemma cycle_iterations (body : ast Z -> res (ctl (ast Z))) (P : ast Z -> Prop) :
  (forall s, P s -> exists s', body s = Ok (Next s') /\ P s' /\ al_iter s' = S (al_iter s)) ->
  forall m s, P s -> exists s', whileM m body s = Ok s' /\ al_iter s' = m + al_iter s.
Proof.
  intros h. induction m as [|m IH]; intros s hs.
  - exists s. auto.
  - destruct (h s hs) as (s1 & e1 & h1 & h2). destruct (IH s1 h1) as (s2 & e2 & h3).
    exists s2. cbn [whileM]. rewrite e1. cbn [bind]. split; [auto|]. rewrite h3, h2. lia.
Qed.

Theorem C19_asymmetric_cycle_refuted : exists rows med,
  rows_ok 3 rows = true /\ meds_b 3 2 med = true /\
  forall maxiter, exists r, alternating (Lt := Z) (mat_of_rows rows) med maxiter = Ok r /\ r_iter r = maxiter.
Proof.
  exists [[0; 6; 1]; [5; 0; 6]; [5; 4; 0]]%Z, [0; 1]. split; [reflexivity|]. split; [reflexivity|].
  intros maxiter.
  set (M := mat_of_rows [[0; 6; 1]; [5; 0; 6]; [5; 4; 0]]%Z).
  unfold alternating. replace (assign_nearest (Lt := Z) M [0; 1]) with (Ok (4%Z, [0; 1; 1])) by (vm_compute; reflexivity).
  cbn [bind].
  destruct (cycle_iterations (alt_iteration M) (fun s => In (al_med s, al_assi s, al_loss s)
    [([0; 1], [0; 1; 1], 4%Z); ([0; 2], [0; 0; 1], 5%Z); ([1; 2], [1; 0; 1], 1%Z);
     ([1; 0], [1; 0; 0], 4%Z); ([2; 0], [1; 1; 0], 5%Z); ([2; 1], [0; 1; 0], 1%Z)]))
    with (m := maxiter) (s := mkA [0; 1] [0; 1; 1] 4%Z 0) as (s & e & h).
  - intros [md a l i] hin. cbn [al_med al_assi al_loss] in hin.
    repeat (destruct hin as [hin|hin]; [injection hin as <- <- <-; eexists;
      split; [vm_compute; reflexivity|]; split; [cbn; auto 10|reflexivity]|]). destruct hin.
  - left. reflexivity.
  - rewrite e. cbn [bind]. eexists. split; [reflexivity|]. cbn [r_iter]. rewrite h. cbn. lia.
Qed.
Print Assumptions C19_asymmetric_cycle_refuted.
