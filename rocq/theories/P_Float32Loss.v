(** P_Float32Loss.v -- property C68: losses of type [f32].  What C60, C61, C62 and C64 say about binary64
    losses, for the total deviation computed in binary32.  Every theorem is followed by a concrete input
    which meets its hypotheses. *)
From Coq Require Import ZArith QArith Qabs Lqa Lia Permutation.
From Coq.Floats Require Import SpecFloat.
From Verif Require Import Base Num M_Mat M_Util M_Fasterpam M_Pam M_ParFasterpam M_Alternating Inst Hoare Spec SpecFacts Laws
  FloatFacts FloatRound PamShape PamFacts ParFacts AltFacts FloatMain FloatSil FloatFmt FloatSwap FloatPar FloatBuild FloatQuality
  Term TermFloat Float32 Float32Loss Ex P_Fasterpam P_Pam P_Float P_Bounded P_Rounding P_Term P_FloatOpt P_Float32.
Open Scope nat_scope.

(** the number a loss stands for *)
Definition val32 (x : f32) : Q := f64_val (sf32 x).
Definition off_by32 (e q : Q) (x : f32) : Prop := (Qabs (val32 x - q) <= e)%Q.
(** the error made by rounding, for entries up to [mx] *)
Definition rounding32 (n : nat) (mx : Q) : Q := (inject_Z (Z.of_nat n * Z.of_nat n) * mx * 2 ^ (-17))%Q.
(** At most 2^18 objects, and entries up to [mx] <= 2^107 *)
Definition fits32 {Nt} `{OrdLaws Nt} (n : nat) (D : nat -> nat -> Nt) (mx : Q) : Prop :=
  (Z.of_nat n <= 262144)%Z /\ (mx <= 2 ^ 107)%Q /\ forall x y, x < n -> y < n -> (vals D x y <= mx)%Q.
(** the conversion of the entries to [f32] is exact *)
Definition exact_from32 {Nt} `{OrdLaws Nt} `{FromN Nt f32} (n : nat) (D : nat -> nat -> Nt) : Prop :=
  forall x y, x < n -> y < n -> sf_finite (sf32 (lfrom (D x y))) /\ (val32 (lfrom (D x y)) == vals D x y)%Q.

(** The returned medoids are nearly optimal, or are one swap away from nearly optimal ones and have
    nearly the same total deviation; the returned loss is nearly that total deviation. *)
Definition stops_near32 (v : diss) (n k : nat) (e : Q) (r : pam_result f32) : Prop :=
  exists med0, medoids n k med0 /\ nearly_optimal v n med0 e /\
    (r_med r = med0 \/ exists b j, b < k /\ j < n /\ r_med r = swap med0 b j) /\
    (Qabs (tdev v n (r_med r) - tdev v n med0) <= e)%Q /\ off_by32 e (tdev v n med0) (r_loss r).
(** the last pass did not lower the computed loss *)
Definition stalled32 (run : nat -> res (pam_result f32)) (r : pam_result f32) : Prop :=
  exists i r0, r_iter r = S i /\ run i = Ok r0 /\ (val32 (r_loss r0) <= val32 (r_loss r))%Q.
Definition nearly_best_single32 (v : diss) (n : nat) (e : Q) (m : res (pam_result f32)) : Prop :=
  exists r best, m = Ok r /\ r_med r = [best] /\ best < n /\
    (forall j, j < n -> (row_total v n best <= row_total v n j + e)%Q) /\
    off_by32 e (row_total v n best) (r_loss r) /\ r_assi r = repeat 0 n /\ r_iter r = 1.

Lemma eps_le32 n mx : (eps (Lt := f32) n mx <= rounding32 n mx)%Q.
Proof.
  unfold eps, rounding32, FloatSil.cnt. rewrite inject_Z_mult.
  assert (e : (128 * lunit (Lt := f32) == 2 ^ (-17))%Q) by reflexivity. rewrite e. apply Qle_refl.
Qed.

Lemma exact_in_f32 {Nt} `{OrdLaws Nt} `{FromN Nt f32} n (D : nat -> nat -> Nt) : exact_from32 n D -> exact_in (Lt := f32) n D.
Proof. intros h x y hx hy. exact (h x y hx hy). Qed.

Lemma f32_fits {Nt : Type} `{HO : OrdLaws Nt} n (D : nat -> nat -> Nt) mx k : fits32 n D mx -> sizes n k ->
  (forall x y, x < n -> y < n -> (vals D x y <= mx)%Q) /\ (4 * FloatSil.cnt n * mx <= lbig (Lt := f32))%Q /\
  1 <= n /\ (64 * FloatSil.cnt n * lunit (Lt := f32) <= 1)%Q.
Proof.
  intros (hn & hb & hmx) hs. assert (h1 : 1 <= n) by (destruct hs; lia). split; [exact hmx|].
  assert (hc : (FloatSil.cnt n <= 2 ^ 18)%Q).
  { unfold FloatSil.cnt. change (2 ^ 18)%Q with (inject_Z 262144). rewrite <- Zle_Qle. exact hn. }
  assert (hc0 : (0 <= FloatSil.cnt n)%Q).
  { unfold FloatSil.cnt. change 0%Q with (inject_Z 0). rewrite <- Zle_Qle. lia. }
  split; [|split; [exact h1|]].
  - apply Qle_trans with (4 * FloatSil.cnt n * 2 ^ 107)%Q.
    + rewrite !(Qmult_comm (4 * FloatSil.cnt n)). apply Qmult_le_compat_r; [exact hb|lra].
    + apply Qle_trans with (2 ^ 18 * (4 * 2 ^ 107))%Q; [|vm_compute; discriminate].
      setoid_replace (4 * FloatSil.cnt n * 2 ^ 107)%Q with (FloatSil.cnt n * (4 * 2 ^ 107))%Q by ring.
      apply Qmult_le_compat_r; [exact hc|vm_compute; discriminate].
  - change (lunit (Lt := f32)) with (2 ^ (-24))%Q.
    setoid_replace (64 * FloatSil.cnt n * 2 ^ (-24))%Q with (FloatSil.cnt n * (2 ^ (-18)))%Q.
    + apply Qle_trans with (2 ^ 18 * 2 ^ (-18))%Q; [|vm_compute; discriminate].
      apply Qmult_le_compat_r; [exact hc|vm_compute; discriminate].
    + assert (e : (64 * 2 ^ (-24) == 2 ^ (-18))%Q) by reflexivity. rewrite <- e. ring.
Qed.

(** C68.  fastpam1 and the swap phase of PAM. *)
Theorem C68_fastpam1_pam {Nt : Type} `{HO : OrdLaws Nt} `{HF : FromN Nt f32} (M : Mat Nt) n D med maxiter mx :
  diss_matrix M n D -> exact_from32 n D -> fits32 n D mx -> sizes n (length med) -> medoids n (length med) med ->
  2 <= length med -> lfrom (nzero : Nt) = (lzero : f32) ->
  exists r1 r2 : pam_result f32, fastpam1 M med maxiter = Ok r1 /\ pam_swap M med maxiter = Ok r2 /\
    forall r, r = r1 \/ r = r2 ->
      (tdev (vals D) n (r_med r) <= tdev (vals D) n med + 3 * rounding32 n mx)%Q /\
      (r_iter r < maxiter -> stops_near32 (vals D) n (length med) (rounding32 n mx) r /\
         (metric n (vals D) -> five_up_to (vals D) n (length med) (rounding32 n mx) (r_med r))).
Proof.
  intros HD he hm hs (_ & hnd & hin) hk hz. destruct (f32_fits n D mx _ hm hs) as (f1 & f2 & f3 & f4).
  destruct (fastpam1_pam_quality M n D mx (rounding32 n mx) HD (exact_in_f32 n D he) f1 f2 f3 f4 (eps_le32 n mx) hz med maxiter hs hin hnd hk)
    as (r1 & r2 & e1 & e2 & h).
  exists r1, r2. split; [exact e1|]. split; [exact e2|]. intros r hr. destruct (h r hr) as [h1 h2]. split; [exact h1|].
  intros hlt. specialize (h2 hlt). split; [exact h2|]. intros hme.
  exact (stops_five_in n D (rounding32 n mx) (length med) r hme h2).
Qed.
Print Assumptions C68_fastpam1_pam.

(** fasterpam and par_fasterpam, for every order of the candidates and every scheduling *)
Theorem C68_fasterpam {Nt : Type} `{HO : OrdLaws Nt} `{HF : FromN Nt f32} (M : Mat Nt) n D order orc med maxiter mx :
  diss_matrix M n D -> exact_from32 n D -> fits32 n D mx -> sizes n (length med) -> (forall m, In m med -> m < n) ->
  2 <= length med -> lfrom (nzero : Nt) = (lzero : f32) -> Permutation order (seq 0 n) -> valid_oracle orc ->
  forall run, run = rand_fasterpam M order med \/ run = par_fasterpam M orc order med ->
  exists r : pam_result f32, run maxiter = Ok r /\
    (tdev (vals D) n (r_med r) <= tdev (vals D) n med + inject_Z (Z.of_nat n + 1) * rounding32 n mx)%Q /\
    (r_swaps r = 0 -> 1 <= maxiter -> nearly_optimal (vals D) n (r_med r) (rounding32 n mx)) /\
    (r_iter r < maxiter -> nearly_optimal (vals D) n (r_med r) (rounding32 n mx) \/ stalled32 run r).
Proof.
  intros HD he hm hs hin hk hz hp hor run hrun. destruct (f32_fits n D mx _ hm hs) as (f1 & f2 & f3 & f4). destruct hrun as [->| ->].
  - exact (fasterpam_quality M n D mx (rounding32 n mx) HD (exact_in_f32 n D he) f1 f2 f3 f4 (eps_le32 n mx) hz order med maxiter hs hin hk hp).
  - exact (par_quality M n D mx (rounding32 n mx) HD (exact_in_f32 n D he) f1 f2 f3 f4 (eps_le32 n mx) hz orc order med maxiter hs hin hk hp hor).
Qed.
Print Assumptions C68_fasterpam.

(** BUILD and pam *)
Theorem C68_pam {Nt : Type} `{HO : OrdLaws Nt} `{HF : FromN Nt f32} (M : Mat Nt) n D k maxiter mx :
  diss_matrix M n D -> exact_from32 n D -> fits32 n D mx -> sizes n k -> lfrom (nzero : Nt) = (lzero : f32) ->
  exists loss assi meds (r : pam_result f32), pam_build M k = Ok (loss, assi, meds) /\ pam M k maxiter = Ok r /\
    1 <= length meds <= k /\ medoids n (length meds) meds /\
    (length meds = k \/ (tdev (vals D) n meds == 0)%Q) /\
    nearly_greedy (vals D) n meds (rounding32 n mx) /\ off_by32 (rounding32 n mx) (tdev (vals D) n meds) loss /\
    length assi = n /\ (forall o, o < n -> nearest (vals D) o meds (nth o assi 0)) /\
    (2 <= length meds -> (tdev (vals D) n (r_med r) <= tdev (vals D) n meds + 3 * rounding32 n mx)%Q /\
       (r_iter r < maxiter -> stops_near32 (vals D) n (length meds) (rounding32 n mx) r /\
          (metric n (vals D) -> five_up_to (vals D) n (length meds) (rounding32 n mx) (r_med r)))) /\
    (length meds = 1 -> pam_swap M meds maxiter = Ok r).
Proof.
  intros HD he hm hs hz. destruct (f32_fits n D mx _ hm hs) as (f1 & f2 & f3 & f4).
  destruct (build_quality M n D mx (rounding32 n mx) HD (exact_in_f32 n D he) f1 f2 f3 f4 (eps_le32 n mx) k hs)
    as (loss & assi & meds & e1 & h).
  destruct (pam_quality M n D mx (rounding32 n mx) HD (exact_in_f32 n D he) f1 f2 f3 f4 (eps_le32 n mx) hz k maxiter hs)
    as (loss' & assi' & meds' & r & e1' & e2 & h1 & h2).
  rewrite e1 in e1'. injection e1' as <- <- <-. exists loss, assi, meds, r. split; [exact e1|]. split; [exact e2|].
  destruct h as (g1 & g2 & g3 & g4 & g5 & g6 & g7). do 7 (split; [assumption|]). split; [|exact h2].
  intros hl. destruct (h1 hl) as [k1 k2]. split; [exact k1|]. intros hlt. specialize (k2 hlt).
  split; [exact k2|]. intros hme. exact (stops_five_in n D (rounding32 n mx) (length meds) r hme k2).
Qed.
Print Assumptions C68_pam.

(** One medoid: up to rounding no other one is better. *)
Theorem C68_single {Nt : Type} `{HO : OrdLaws Nt} `{HF : FromN Nt f32} (M : Mat Nt) n D x maxiter order orc mx :
  diss_matrix M n D -> exact_from32 n D -> fits32 n D mx -> sizes n 1 -> x < n ->
  forall m, In m [fasterpam M [x] maxiter; rand_fasterpam M order [x] maxiter; par_fasterpam M orc order [x] maxiter;
      fastpam1 M [x] maxiter; pam_swap M [x] maxiter; pam M 1 maxiter] ->
    nearly_best_single32 (vals D) n (rounding32 n mx) m.
Proof.
  intros HD he hmax hs hx. destruct (f32_fits n D mx _ hmax hs) as (f1 & f2 & f3 & f4).
  exact (single_pam_quality M n D mx (rounding32 n mx) HD (exact_in_f32 n D he) f1 f2 f3 f4 (eps_le32 n mx) x maxiter order orc hs hx).
Qed.
Print Assumptions C68_single.

(** alternating *)
Theorem C68_alternating {Nt : Type} `{HO : OrdLaws Nt} `{HF : FromN Nt f32} (M : Mat Nt) n D med maxiter mx :
  diss_matrix M n D -> exact_from32 n D -> fits32 n D mx -> sizes n (length med) -> medoids n (length med) med ->
  exists r : pam_result f32, alternating M med maxiter = Ok r /\
    medoids n (length med) (r_med r) /\ length (r_assi r) = n /\
    (forall o, o < n -> nearest (vals D) o (r_med r) (nth o (r_assi r) 0)) /\ r_iter r <= maxiter /\
    (symmetric n (vals D) -> (tdev (vals D) n (r_med r) <=
       tdev (vals D) n med + inject_Z (Z.of_nat (r_iter r) * Z.of_nat (length med)) * rounding32 n mx)%Q) /\
    (r_iter r < maxiter -> forall c j, c < length med -> j < n -> nth j (r_assi r) 0 = c ->
       (cluster_cost (vals D) n (r_assi r) c (nth c (r_med r) 0%nat) <=
        cluster_cost (vals D) n (r_assi r) c j + rounding32 n mx)%Q).
Proof.
  intros HD he hmax hs hm. destruct (f32_fits n D mx _ hmax hs) as (f1 & f2 & f3 & f4).
  exact (alternating_quality M n D mx (rounding32 n mx) HD (exact_in_f32 n D he) f1 f2 f3 f4 (eps_le32 n mx) med maxiter hs hm).
Qed.
Print Assumptions C68_alternating.

(** The two sources of dissimilarities: [f32] itself, and the integers [u8], [u16], [i8], [i16]. *)
Lemma exact_from_f32 (M : Mat f32) n D : diss_matrix M n D -> exact_from32 n D.
Proof. intros h. exact (exact_f32 (diss_nonneg _ _ _ h)). Qed.
Lemma exact_from_Z32 (M : Mat Z) n D : diss_matrix M n D -> (forall x y, x < n -> y < n -> (D x y <= 65535)%Z) -> exact_from32 n D.
Proof. intros h h'. exact (exact_Z32 (diss_nonneg _ _ _ h) h'). Qed.

Lemma s_fits : fits32 5 (entries32 rows_s) 1.
Proof.
  split; [lia|]. split; [vm_compute; discriminate|]. intros x y hx hy.
  apply Qle_trans with (1 := proj2 s_greatest x y hx hy). vm_compute. discriminate.
Qed.
Lemma d6_fits : fits32 6 d6 20.
Proof. split; [lia|]. split; [vm_compute; discriminate|]. exact (proj2 d6_at_most). Qed.
Lemma d6_exact32 : exact_from32 6 d6.
Proof.
  apply (exact_from_Z32 _ _ _ m6_diss). intros x y hx hy.
  do 6 (destruct x; [do 6 (destruct y; [vm_compute; discriminate|]); lia|]). lia.
Qed.
Definition s_exact := exact_from_f32 _ _ _ s_diss.
Definition C68_case_fastpam1_pam := C68_fastpam1_pam _ 5 _ [0; 1] 10 1 s_diss s_exact s_fits s52 k52 (le_n 2) eq_refl.
Definition C68_case_integers := C68_fastpam1_pam _ 6 _ [0; 1] 10 20 m6_diss d6_exact32 d6_fits s62 k62 (le_n 2) eq_refl.
Definition C68_case_fasterpam := C68_fasterpam _ 5 _ [4; 2; 0; 1; 3] P_Pam.orc2 [0; 1] 10 1 s_diss s_exact s_fits s52
  (proj2 (proj2 k52)) (le_n 2) eq_refl perm5' P_Pam.orc2_ok.
Definition C68_case_fasterpam_integers := C68_fasterpam _ 6 _ (seq 0 6) P_Pam.orc2 [0; 1] 10 20 m6_diss d6_exact32 d6_fits s62
  (proj2 (proj2 k62)) (le_n 2) eq_refl (Permutation_refl _) P_Pam.orc2_ok.
Definition C68_case_pam := C68_pam _ 5 _ 3 10 1 s_diss s_exact s_fits s53 eq_refl.
Definition C68_case_pam_integers := C68_pam _ 6 _ 3 10 20 m6_diss d6_exact32 d6_fits s63 eq_refl.
Definition C68_case_single := C68_single _ 5 _ 1 10 [] P_Pam.orc2 1 s_diss s_exact s_fits s51 (le_S _ _ (le_S _ _ (le_S _ _ (le_n 2)))).
Definition C68_case_alternating := C68_alternating _ 5 _ [0; 1] 10 1 s_diss s_exact s_fits s52 k52.

(** They stop by themselves, whatever the entries are: with [f32] dissimilarities even if the losses
    overflow. *)
Lemma all_stop {Nt : Type} `{HO : OrdLaws Nt} `{HF : FromN Nt f32} `{HT : @LossOrder Nt f32 _ _ _ _} (M : Mat Nt) n D med order :
  diss_matrix M n D -> same_losses (Lt := f32) n D -> lfrom (nzero : Nt) = (lzero : f32) ->
  sizes n (length med) -> (forall m, In m med -> m < n) -> (forall j, In j order -> j < n) ->
  (forall run, In run [fasterpam (Lt := f32) M med; rand_fasterpam (Lt := f32) M order med; fastpam1 (Lt := f32) M med;
      pam_swap (Lt := f32) M med] -> stops_by_itself run (n ^ length med)) /\
  (forall k, sizes n k -> stops_by_itself (pam (Lt := f32) M k) (S (n ^ k))).
Proof.
  intros HD hsame hz0 hs hin ho. split.
  - intros run [<-|[<-|[<-|[<-|[]]]]].
    + apply (fasterpam_by_itself (Lt := f32) M n D HD hsame hz0 (seq 0 (mlen M))); auto.
      intros j hj. apply in_seq in hj. rewrite (len_n (proj1 HD)) in hj. lia.
    + apply (fasterpam_by_itself (Lt := f32) M n D HD hsame hz0 order); auto.
    + apply (fastpam1_by_itself (Lt := f32) M n D HD hsame hz0); auto.
    + apply (pam_swap_by_itself (Lt := f32) M n D HD hsame hz0); auto.
  - intros k hk. apply (pam_by_itself (Lt := f32) M n D HD hsame hz0); auto.
Qed.

Theorem C68_termination n med order : sizes n (length med) -> (forall m, In m med -> m < n) -> (forall j, In j order -> j < n) ->
  (forall (M : Mat f32) D, diss_matrix M n D -> no_negative_zero32 n D ->
    (forall run, In run [fasterpam (Lt := f32) M med; rand_fasterpam (Lt := f32) M order med; fastpam1 (Lt := f32) M med;
        pam_swap (Lt := f32) M med] -> stops_by_itself run (n ^ length med)) /\
    (forall k, sizes n k -> stops_by_itself (pam (Lt := f32) M k) (S (n ^ k)))) /\
  (forall (M : Mat Z) D, diss_matrix M n D ->
    (forall run, In run [fasterpam (Lt := f32) M med; rand_fasterpam (Lt := f32) M order med; fastpam1 (Lt := f32) M med;
        pam_swap (Lt := f32) M med] -> stops_by_itself run (n ^ length med)) /\
    (forall k, sizes n k -> stops_by_itself (pam (Lt := f32) M k) (S (n ^ k)))).
Proof.
  intros hs hin ho. split; intros M D HD; [intros hz|].
  - apply (all_stop M n D med order HD (same_losses_f32' HD hz) eq_refl hs hin ho).
  - apply (all_stop M n D med order HD (@same_losses_Z32 n D) eq_refl hs hin ho).
Qed.
Print Assumptions C68_termination.
Definition C68_case_termination := C68_termination 5 [0; 1; 2] [4; 2; 0; 1; 3] s53
  (below5 [0; 1; 2] eq_refl) (below5 [4; 2; 0; 1; 3] eq_refl).
Definition C68_case_termination_f32 := proj1 C68_case_termination _ _ s_diss s_zero.

(** par_fasterpam adds up the loss in another order in every pass; there are at most 5n values of the
    loss for each list of medoids. *)
Theorem C68_par_termination {Nt : Type} `{HO : OrdLaws Nt} `{HF : FromN Nt f32} (M : Mat Nt) n D orc order med mx :
  diss_matrix M n D -> exact_from32 n D -> fits32 n D mx -> sizes n (length med) -> (forall x, In x med -> x < n) ->
  lfrom (nzero : Nt) = (lzero : f32) -> (forall j, In j order -> j < n) -> valid_oracle orc ->
  stops_by_itself (par_fasterpam (Lt := f32) M orc order med) ((5 * n + 1) * n ^ length med).
Proof.
  intros HD he hm hs hin hz ho hor. pose proof (proj1 HD) as HM. destruct (f32_fits n D mx _ hm hs) as (f1 & f2 & f3 & f4).
  pose proof (pow_pos _ _ hs) as hB.
  destruct (Nat.eq_dec (length med) 1) as [h1|h1].
  - assert (e : forall f, par_fasterpam (Lt := f32) M orc order med f = single_medoid M med).
    { intros f. unfold par_fasterpam. rewrite (proj2 (Nat.eqb_eq _ _) h1). reflexivity. }
    apply stops_intro; [|intros; rewrite !e; reflexivity].
    rewrite e. eapply single_stops; eauto. nia.
  - assert (hk : 2 <= length med) by (destruct hs; lia).
    apply stops_intro; [eapply oks_mono; [apply (par_fasterpam_shape HM); auto|]; intros r h; apply h|].
    apply (par_fuel M n D mx HD (exact_in_f32 n D he) f1 f2 f3 f4); auto.
Qed.
Print Assumptions C68_par_termination.
Definition C68_case_par_termination := C68_par_termination _ 5 _ P_Pam.orc2 [4; 2; 0; 1; 3] [0; 1] 1 s_diss s_exact s_fits s52
  (proj2 (proj2 k52)) eq_refl (below5 [4; 2; 0; 1; 3] eq_refl) P_Pam.orc2_ok.

(** With a limit above the bound, [f32] dissimilarities and [f32] losses: *)
Theorem C68_enough_iterations (M : Mat f32) n D med k maxiter mx :
  diss_matrix M n D -> no_negative_zero32 n D -> fits32 n D mx -> sizes n k -> medoids n k med -> 2 <= k -> S (n ^ k) < maxiter ->
  (exists r1 r2 : pam_result f32, fastpam1 M med maxiter = Ok r1 /\ pam_swap M med maxiter = Ok r2 /\
    forall r, r = r1 \/ r = r2 -> stops_near32 (vals D) n k (rounding32 n mx) r /\
      (metric n (vals D) -> five_up_to (vals D) n k (rounding32 n mx) (r_med r))) /\
  (exists loss assi meds (r : pam_result f32), pam_build M k = Ok (loss, assi, meds) /\ pam M k maxiter = Ok r /\
    (2 <= length meds -> stops_near32 (vals D) n (length meds) (rounding32 n mx) r /\
       (metric n (vals D) -> five_up_to (vals D) n (length meds) (rounding32 n mx) (r_med r)))).
Proof.
  intros hd hz hb hs hm hk hlt. assert (hl : length med = k) by apply hm. subst k.
  pose proof (exact_from_f32 M n D hd) as he. pose proof (proj2 (proj2 hm)) as hin.
  destruct (C68_termination n med [] hs hin) as [T _]; [intros j []|]. destruct (T M D hd hz) as [T1 T2]. split.
  - destruct (C68_fastpam1_pam M n D med maxiter mx hd he hb hs hm hk eq_refl) as (r1 & r2 & e1 & e2 & h).
    destruct (T1 (fastpam1 M med) ltac:(simpl; auto)) as (r1' & g1 & h1).
    destruct (T1 (pam_swap M med) ltac:(simpl; auto)) as (r2' & g2 & h2).
    specialize (h1 maxiter ltac:(lia)). specialize (h2 maxiter ltac:(lia)).
    assert (r1' = r1) as -> by congruence. assert (r2' = r2) as -> by congruence.
    exists r1, r2. split; [exact e1|]. split; [exact e2|]. intros r hr.
    apply (h r hr). destruct hr as [->| ->]; lia.
  - destruct (C68_pam M n D (length med) maxiter mx hd he hb hs eq_refl)
      as (loss & assi & meds & r & e1 & e2 & _ & _ & _ & _ & _ & _ & _ & h & _).
    destruct (T2 (length med) hs) as (r' & g1 & h1). specialize (h1 maxiter ltac:(lia)). assert (r' = r) as -> by congruence.
    exists loss, assi, meds, r. split; [exact e1|]. split; [exact e2|]. intros hl. apply (h hl). lia.
Qed.
Print Assumptions C68_enough_iterations.
Definition C68_case_enough := C68_enough_iterations _ 5 _ [0; 1] 2 27 1 s_diss s_zero s_fits s52 k52 (le_n 2) (le_n 27).

(** As in binary64 the medoids themselves need not be nearly optimal when the algorithm stops: here a
    swap which changes nothing is made because of the rounding errors, the computed loss stays 1, and the
    algorithm stops, although another swap would lower the total deviation by three tenths. *)
Definition rows_stall32 : list (list f32) := Eval vm_compute in map (map tenth32)
  [[0; 7; 7; 4]; [7; 0; 9; 3]; [7; 9; 0; 7]; [4; 3; 7; 0]]%Z.
Theorem C68_stall_refuted : exists (M : Mat f32) n D med,
  diss_matrix M n D /\ no_negative_zero32 n D /\ metric n (vals D) /\ fits32 n D 1 /\
  sizes n (length med) /\ medoids n (length med) med /\
  forall maxiter, 2 <= maxiter -> exists r : pam_result f32, fasterpam M med maxiter = Ok r /\ fastpam1 M med maxiter = Ok r /\
    r_iter r = 1 /\ r_swaps r = 1 /\
    exists b j, b < length med /\ j < n /\ (tdev (vals D) n (swap (r_med r) b j) < (71 # 100) * tdev (vals D) n (r_med r))%Q.
Proof.
  exists (mat_of_rows rows_stall32), 4, (entries32 rows_stall32), [0; 1].
  destruct (rows32_diss 4 rows_stall32 ltac:(lia) eq_refl) as [h1 h2]. split; [exact h1|]. split; [exact h2|]. split.
  { split; [split|split].
    - intros i hi. do 4 (destruct i; [vm_compute; reflexivity|]). lia.
    - intros i j hi hj. apply h1; auto.
    - intros x y hx hy. do 4 (destruct x; [do 4 (destruct y; [vm_compute; reflexivity|]); lia|]). lia.
    - intros x y z hx hy hz. do 4 (destruct x; [do 4 (destruct y; [do 4 (destruct z; [vm_compute; discriminate|]); lia|]); lia|]). lia. }
  split.
  { split; [lia|]. split; [vm_compute; discriminate|]. intros x y hx hy.
    do 4 (destruct x; [do 4 (destruct y; [vm_compute; discriminate|]); lia|]). lia. }
  split; [exact s42|]. split; [exact k42|].
  intros maxiter hm. destruct maxiter as [|[|f]]; [lia..|].
  eexists. split; [vm_compute; reflexivity|]. split; [vm_compute; reflexivity|]. split; [reflexivity|]. split; [reflexivity|].
  exists 0, 2. split; [simpl; lia|]. split; [lia|]. vm_compute. reflexivity.
Qed.
Print Assumptions C68_stall_refuted.

(** Without the bound on the entries the losses overflow: fasterpam returns the medoids it was given and
    an infinite loss, although one swap would lower the total deviation by five eighths. *)
Definition rows_ov32 : list (list f32) := Eval vm_compute in map (map (fun z => F32 (binary_normalize sprec semax z 125 false)))
  [[0; 7; 6; 1; 7]; [7; 0; 1; 4; 6]; [6; 1; 0; 6; 2]; [1; 4; 6; 0; 1]; [7; 6; 2; 1; 0]]%Z.
Theorem C68_overflow_refuted : exists (M : Mat f32) n D med, diss_matrix M n D /\ no_negative_zero32 n D /\ symmetric n (vals D) /\
  sizes n (length med) /\ medoids n (length med) med /\
  forall maxiter, 2 <= maxiter -> exists r : pam_result f32, fasterpam M med maxiter = Ok r /\ r_iter r < maxiter /\ r_med r = med /\
    sf32 (r_loss r) = S754_infinity false /\
    exists b j, b < length med /\ j < n /\ (tdev (vals D) n (swap med b j) == (3 # 8) * tdev (vals D) n med)%Q.
Proof.
  exists (mat_of_rows rows_ov32), 5, (entries32 rows_ov32), [0; 1].
  destruct (rows32_diss 5 rows_ov32 ltac:(lia) eq_refl) as [h1 h2]. split; [exact h1|]. split; [exact h2|]. split.
  { intros x y hx hy. do 5 (destruct x; [do 5 (destruct y; [vm_compute; reflexivity|]); lia|]). lia. }
  split; [exact s52|]. split; [exact k52|].
  intros maxiter hm. destruct maxiter as [|[|f]]; [lia..|].
  eexists. split; [vm_compute; reflexivity|]. cbn [r_iter r_med r_loss]. split; [lia|]. split; [reflexivity|]. split; [reflexivity|].
  exists 0, 3. split; [simpl; lia|]. split; [lia|]. vm_compute. reflexivity.
Qed.
Print Assumptions C68_overflow_refuted.
