(** P_FloatBuild.v -- property C64: BUILD, pam with BUILD, a single medoid, and alternating in binary64.
    Every theorem is followed by a concrete input which meets its hypotheses. *)
From Coq Require Import ZArith QArith Qabs Lqa Lia Permutation.
From Coq.Floats Require Import SpecFloat.
From Verif Require Import Base Num M_Mat M_Util M_Fasterpam M_ParFasterpam M_Pam M_Alternating M_Silhouette M_Msc M_Pammedsil M_Pamsil Inst Hoare
  Spec SpecFacts Laws FloatFacts FloatRound PamShape PamExact PamFacts PamMain MscMain FloatMain FloatSil FloatLoss FloatFmt FloatSwap FloatPam FloatQuality
  Approx TermFloat ChooseFacts AltFacts FloatBuild Ex P_Fasterpam P_Pam P_Pamsil P_Float P_Bounded P_Rounding P_Term P_FloatOpt.
Open Scope nat_scope.

Lemma rounding_pos n mx : (0 <= mx)%Q -> (0 <= rounding n mx)%Q.
Proof.
  intros h. unfold rounding. apply Qmult_le_0_compat; [|apply Qlt_le_weak; reflexivity].
  apply Qmult_le_0_compat; [|exact h]. change 0%Q with (inject_Z 0). rewrite <- Zle_Qle. lia.
Qed.

Lemma err_rounding n mx : (4 * err (Lt := f64) n mx == rounding n mx)%Q.
Proof. rewrite <- eps_rounding, eps_err. reflexivity. Qed.

Lemma close_off e e' x y : (e <= e')%Q -> close e x y -> off_by e' x y.
Proof. intros he [h1 h2]. apply Qabs_Qle_condition. lra. Qed.

(** C64.  The medoids of BUILD are distinct, nearly greedy, and k of them unless the total deviation is
    already exactly 0; the loss is nearly the total deviation. *)
Theorem C64_build {Nt : Type} `{HO : OrdLaws Nt} `{HF : FromN Nt f64} (M : Mat Nt) n D k mx :
  diss_matrix M n D -> exact_from n D -> at_most n D mx -> sizes n k ->
  exists loss assi meds, pam_build M k = Ok (loss, assi, meds) /\
    1 <= length meds <= k /\ medoids n (length meds) meds /\
    (length meds = k \/ (tdev (vals D) n meds == 0)%Q) /\
    nearly_greedy (vals D) n meds (rounding n mx) /\ off_by (rounding n mx) (tdev (vals D) n meds) loss /\
    length assi = n /\ (forall o, o < n -> nearest (vals D) o meds (nth o assi 0)).
Proof.
  intros HD he hm hs. destruct (f64_fits n D mx _ hm hs) as (f1 & f2 & f3 & f4).
  exact (build_quality M n D mx (rounding n mx) HD (exact_in_f64 he) f1 f2 f3 f4 (eps_le n mx) k hs).
Qed.
Print Assumptions C64_build.
Definition C64_case_build := C64_build _ 5 _ 3 1 f1_diss (f64_exact_from _ _ _ (diss_nonneg _ _ _ f1_diss)) f1_at_most s53.
Definition C64_case_build_integers := C64_build _ 6 _ 3 20 m6_diss d6_exact d6_at_most s63.

(** pam with the medoids of BUILD *)
Theorem C64_pam {Nt : Type} `{HO : OrdLaws Nt} `{HF : FromN Nt f64} (M : Mat Nt) n D k maxiter mx :
  diss_matrix M n D -> exact_from n D -> at_most n D mx -> sizes n k -> lfrom (nzero : Nt) = S754_zero false ->
  exists loss assi meds (r : pam_result f64), pam_build M k = Ok (loss, assi, meds) /\ pam M k maxiter = Ok r /\
    (2 <= length meds -> (tdev (vals D) n (r_med r) <= tdev (vals D) n meds + 3 * rounding n mx)%Q /\
       (r_iter r < maxiter -> stops_near (vals D) n (length meds) (rounding n mx) r /\
          (metric n (vals D) -> five_up_to (vals D) n (length meds) (rounding n mx) (r_med r)))) /\
    (length meds = 1 -> pam_swap M meds maxiter = Ok r).
Proof.
  intros HD he hm hs hz. destruct (f64_fits n D mx _ hm hs) as (f1 & f2 & f3 & f4).
  destruct (pam_quality M n D mx (rounding n mx) HD (exact_in_f64 he) f1 f2 f3 f4 (eps_le n mx) hz k maxiter hs)
    as (loss & assi & meds & r & e1 & e2 & h1 & h2).
  exists loss, assi, meds, r. split; [exact e1|]. split; [exact e2|]. split; [|exact h2].
  intros hl. destruct (h1 hl) as [g1 g2]. split; [exact g1|]. intros hlt. specialize (g2 hlt).
  split; [exact g2|]. intros hme. apply stops_five; auto.
Qed.
Print Assumptions C64_pam.
Definition C64_case_pam := C64_pam _ 5 _ 2 10 1 f1_diss (f64_exact_from _ _ _ (diss_nonneg _ _ _ f1_diss)) f1_at_most s52 eq_refl.
Definition C64_case_pam_integers := C64_pam _ 6 _ 3 10 20 m6_diss d6_exact d6_at_most s63 eq_refl.

(** What PAM returns fits together: the assignment is to the nearest medoid, and every medoid is in its own cluster. *)
Theorem C64_pam_consistent {Nt : Type} `{HO : OrdLaws Nt} `{HF : FromN Nt f64} (M : Mat Nt) n D k maxiter mx :
  diss_matrix M n D -> exact_from n D -> at_most n D mx -> sizes n k ->
  exists loss assi meds (r : pam_result f64), pam_build M k = Ok (loss, assi, meds) /\ pam M k maxiter = Ok r /\
    well_assigned n (length meds) (vals D) r.
Proof.
  intros HD he hm hs. destruct (f64_fits n D mx _ hm hs) as (f1 & f2 & f3 & f4).
  destruct (pam_fits HD (exact_in_f64 he) f1 f2 f3 f4 maxiter hs) as (l & a & ms & r & e1 & e2 & _ & h).
  exists l, a, ms, r. split; [exact e1|]. split; [exact e2|]. exact h.
Qed.
Print Assumptions C64_pam_consistent.
Definition C64_case_consistent := C64_pam_consistent _ 5 _ 3 10 1 f1_diss (f64_exact_from _ _ _ (diss_nonneg _ _ _ f1_diss)) f1_at_most s53.

(** With a limit above n^k + 1 it always gets there. *)
Theorem C64_pam_enough (M : Mat f64) n D k maxiter mx :
  diss_matrix M n D -> no_negative_zero n D -> at_most n D mx -> sizes n k -> S (n ^ k) < maxiter ->
  exists loss assi meds (r : pam_result f64), pam_build M k = Ok (loss, assi, meds) /\ pam M k maxiter = Ok r /\
    (2 <= length meds -> stops_near (vals D) n (length meds) (rounding n mx) r /\
       (metric n (vals D) -> five_up_to (vals D) n (length meds) (rounding n mx) (r_med r))).
Proof.
  intros hd hz hb hs hlt.
  destruct (C64_pam M n D k maxiter mx hd (f64_exact_from _ _ _ (diss_nonneg _ _ _ hd)) hb hs eq_refl)
    as (loss & assi & meds & r & e1 & e2 & h & _).
  exists loss, assi, meds, r. split; [exact e1|]. split; [exact e2|]. intros hl.
  assert (hn : 1 <= n) by (destruct hs; lia).
  destruct (C60_fastpam1_pam M n D [0] hd hz) as (_ & _ & h3).
  { unfold sizes in hs |- *. cbn [length]. lia. }
  { intros m [<-|[]]. lia. }
  destruct (h3 k hs) as (r' & g1 & h4). specialize (h4 maxiter ltac:(lia)). assert (r' = r) as -> by congruence.
  apply h; auto. lia.
Qed.
Print Assumptions C64_pam_enough.
Definition C64_case_pam_enough := C64_pam_enough _ 5 _ 2 27 1 f1_diss f1_no_negative_zero f1_at_most s52 (le_n 27).

(** One medoid: up to rounding no other one is better. *)
Definition nearly_best_single (v : diss) (n : nat) (e : Q) (m : res (pam_result f64)) : Prop :=
  exists r best, m = Ok r /\ r_med r = [best] /\ best < n /\
    (forall j, j < n -> (row_total v n best <= row_total v n j + e)%Q) /\
    off_by e (row_total v n best) (r_loss r) /\ r_assi r = repeat 0 n /\ r_iter r = 1.

Theorem C64_single {Nt : Type} `{HO : OrdLaws Nt} `{HF : FromN Nt f64} (M : Mat Nt) n D x maxiter order orc mx :
  diss_matrix M n D -> exact_from n D -> at_most n D mx -> sizes n 1 -> x < n ->
  forall m, In m [fasterpam M [x] maxiter; rand_fasterpam M order [x] maxiter; par_fasterpam M orc order [x] maxiter;
      fastpam1 M [x] maxiter; pam_swap M [x] maxiter; fastermsc M [x] maxiter; fastmsc M [x] maxiter;
      pammedsil_swap M [x] maxiter; pamsil_swap M [x] maxiter; pam M 1 maxiter] ->
    nearly_best_single (vals D) n (rounding n mx) m.
Proof.
  intros HD he hmax hs hx m hm. destruct (f64_fits n D mx _ hmax hs) as (f1 & f2 & f3 & f4).
  pose proof (single_quality M n D mx (rounding n mx) HD (exact_in_f64 he) f1 f2 f3 f4 (eps_le n mx)) as G.
  change (forall y, y < n -> nearly_best_single (vals D) n (rounding n mx) (single_medoid M [y])) in G.
  destruct (single_all (Lt := f64) (proj1 HD) maxiter order orc hs hx) as (e1 & e2 & e3 & e4 & e5).
  destruct (msc_single (Lt := f64) (proj1 HD) maxiter hs hx) as (e6 & e7 & e8).
  pose proof (pamsil_single (Lt := f64) M n D x maxiter (proj1 HD) hs hx) as e9.
  destruct (pam_single (Lt := f64) M n D mx HD (exact_in_f64 he) f1 f2 f3 f4 maxiter hs) as (y & hy & e10).
  cbn [In] in hm. repeat (destruct hm as [<-|hm]); try contradiction; try (rewrite ?e1, ?e2, ?e3, ?e4, ?e5, ?e6, ?e7, ?e8, ?e9; auto; fail).
  rewrite e10. auto.
Qed.
Print Assumptions C64_single.
Definition C64_case_single := C64_single _ 5 _ 1 10 [] P_Pam.orc2 1 f1_diss
  (f64_exact_from _ _ _ (diss_nonneg _ _ _ f1_diss)) f1_at_most s51 (le_S _ _ (le_S _ _ (le_S _ _ (le_n 2)))).

(** Only up to rounding: on four objects of a metric space the best medoid is 0, but BUILD chooses 1, and
    the optimizations started at 0 leave it for 1. *)
Definition rows_one : list (list f64) := Eval vm_compute in
  [[f64_of_Z 0; tenth 7; tenth 3; tenth 7]; [tenth 7; f64_of_Z 0; tenth 6; tenth 4];
   [tenth 3; tenth 6; f64_of_Z 0; tenth 8]; [tenth 7; tenth 4; tenth 8; f64_of_Z 0]]%Z.
Lemma one_ok : frows_ok 4 rows_one = true.
Proof. vm_compute. reflexivity. Qed.
Definition one_diss := frows_diss 4 rows_one ltac:(lia) one_ok.
Lemma one_metric : metric 4 (vals (fentries rows_one)).
Proof. apply metric_rows; [lia|exact one_ok|vm_compute; reflexivity]. Qed.

Theorem C64_single_refuted : exists (M : Mat f64) n D, diss_matrix M n D /\ metric n (vals D) /\
  (row_total (vals D) n 0 < row_total (vals D) n 1)%Q /\
  (exists r : pam_result f64, fasterpam M [0] 10 = Ok r /\ r_med r = [1] /\ r_swaps r = 1) /\
  (exists loss assi, pam_build M 1 = Ok (loss : f64, assi, [1])).
Proof.
  exists (mat_of_rows rows_one), 4, (fentries rows_one).
  split; [exact one_diss|]. split; [exact one_metric|]. split; [vm_compute; reflexivity|].
  split.
  - exists (mkPR (S754_finite false 7656119366529842 (-52)) [0; 0; 0; 0] 1 1 [1]). split; [vm_compute; reflexivity|split; reflexivity].
  - exists (S754_finite false 7656119366529842 (-52)), [0; 0; 0; 0]. vm_compute. reflexivity.
Qed.
Print Assumptions C64_single_refuted.

(** alternating *)
Theorem C64_alternating {Nt : Type} `{HO : OrdLaws Nt} `{HF : FromN Nt f64} (M : Mat Nt) n D med maxiter mx :
  diss_matrix M n D -> exact_from n D -> at_most n D mx -> sizes n (length med) -> medoids n (length med) med ->
  exists r : pam_result f64, alternating M med maxiter = Ok r /\
    medoids n (length med) (r_med r) /\ length (r_assi r) = n /\
    (forall o, o < n -> nearest (vals D) o (r_med r) (nth o (r_assi r) 0)) /\ r_iter r <= maxiter /\
    (symmetric n (vals D) -> (tdev (vals D) n (r_med r) <=
       tdev (vals D) n med + inject_Z (Z.of_nat (r_iter r) * Z.of_nat (length med)) * rounding n mx)%Q) /\
    (r_iter r < maxiter -> forall c j, c < length med -> j < n -> nth j (r_assi r) 0 = c ->
       (cluster_cost (vals D) n (r_assi r) c (nth c (r_med r) 0%nat) <=
        cluster_cost (vals D) n (r_assi r) c j + rounding n mx)%Q).
Proof.
  intros HD he hmax hs hm. destruct (f64_fits n D mx _ hmax hs) as (f1 & f2 & f3 & f4).
  exact (alternating_quality M n D mx (rounding n mx) HD (exact_in_f64 he) f1 f2 f3 f4 (eps_le n mx) med maxiter hs hm).
Qed.
Print Assumptions C64_alternating.
Definition C64_case_alternating := C64_alternating _ 5 _ [0; 1] 10 1 f1_diss
  (f64_exact_from _ _ _ (diss_nonneg _ _ _ f1_diss)) f1_at_most s52 k52.
