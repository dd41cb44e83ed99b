(** P_Twins.v -- property C94: medoids which could stand in for each other.  The swap algorithms do not waste medoids on duplicates;
    the alternating algorithm and the medoid silhouette do.
    Every theorem is followed by a concrete input which meets its hypotheses. *)
From Coq Require Import ZArith QArith Lqa Lia Permutation.
From Coq.Floats Require Import SpecFloat.
From Verif Require Import Base Num M_Mat M_Util M_Fasterpam M_Pam M_Alternating M_ParFasterpam M_Msc M_Pammedsil Inst Hoare Spec SpecFacts Laws
  PamShape PamExact FpMain PamMain ParFacts BuildFacts Reference Twins Ex P_Fasterpam P_Pam P_Restart P_Approx.
From Verif Require Import FloatSil FloatQuality P_Float P_Rounding P_FloatOpt.
From Verif Require P_Reference.
Open Scope nat_scope.

(** If medoid [c] can take the objects of medoid [b] at an expense of at most [e] each, then no object is farther from its medoid than
    the expense for the whole cluster [b].  (Otherwise that object would make a better medoid than [b].) *)
Definition well_spread {Lt} (v : diss) (n k : nat) (p : pam_result Lt) : Prop :=
  forall b c e x, b < k -> c < k -> b <> c -> x < n -> (0 <= e)%Q ->
    (forall o, (o < n)%nat -> v o (nth c (r_med p) 0%nat) <= v o (nth b (r_med p) 0%nat) + e)%Q ->
    (mindist v x (r_med p) <= inject_Z (Z.of_nat (count_occ Nat.eq_dec (r_assi p) b)) * e)%Q.

(** one medoid is at least as near to everybody as another one only if all objects are at no distance from their medoids *)
Definition none_wasted {Lt} (vl : Lt -> Q) (v : diss) (n k : nat) (p : pam_result Lt) : Prop :=
  forall b c, b < k -> c < k -> b <> c ->
    (forall o, (o < n)%nat -> v o (nth c (r_med p) 0%nat) <= v o (nth b (r_med p) 0%nat))%Q -> (vl (r_loss p) == 0)%Q.

(** in a metric: no two medoids are close to each other unless all objects are close to the medoids; and the medoids
    are at [k] different places if there are so many *)
Definition apart {Lt} (v : diss) (n k : nat) (p : pam_result Lt) : Prop :=
  (forall b c x, b < k -> c < k -> b <> c -> x < n ->
    (mindist v x (r_med p) <=
     inject_Z (Z.of_nat (count_occ Nat.eq_dec (r_assi p) b)) * v (nth b (r_med p) 0%nat) (nth c (r_med p) 0%nat))%Q) /\
  (forall w, medoids n k w -> (forall x y, In x w -> In y w -> x <> y -> (0 < v x y)%Q) ->
    forall b c, b < k -> c < k -> b <> c -> (0 < v (nth b (r_med p) 0%nat) (nth c (r_med p) 0%nat))%Q).

Section End_.
  Context {Nt Lt : Type} `{HLL : LossLaws Nt Lt}.
  Variables (v : diss) (n k : nat) (p : pam_result Lt).
  Hypothesis hv : dissimilarity n v.
  Hypothesis hm : medoids n k (r_med p).
  Hypothesis hl : length (r_assi p) = n.
  Hypothesis hn : forall o, o < n -> nearest v o (r_med p) (nth o (r_assi p) 0).
  Hypothesis hopt : swap_optimal v n (r_med p).
  Hypothesis hlo : (vL (r_loss p) == tdev v n (r_med p))%Q.

  Lemma opt_spread : well_spread v n k p.
  Proof.
    intros b c e x hb hc hbc hx he h. destruct hm as (h1 & _ & h3). rewrite <- h1 in *.
    eapply close_swap; eauto.
  Qed.

  Lemma opt_none_wasted : none_wasted vL v n k p.
  Proof.
    intros b c hb hc hbc h. destruct hm as (h1 & _ & h3). rewrite <- h1 in *.
    rewrite hlo. apply wasted_zero with (assi := r_assi p) (b := b) (c := c); auto.
  Qed.

  Lemma opt_apart : metric n v -> apart v n k p.
  Proof.
    intros hme. pose proof hme as (_ & hsy & htri). destruct hm as (h1 & h2 & h3).
    assert (hnth : forall c, c < k -> nth c (r_med p) 0 < n) by (intros c hc; apply h3, nth_In; lia).
    split.
    - intros b c x hb hc hbc hx. apply (opt_spread b c); auto. apply hv; auto.
    - intros w hw hpos b c hb hc hbc. apply Qnot_le_lt. intros hle.
      assert (h0 : (v (nth b (r_med p) 0%nat) (nth c (r_med p) 0%nat) == 0)%Q).
      { apply Qle_antisym; [exact hle|]. apply hv; auto. }
      assert (hz : (tdev v n (r_med p) == 0)%Q).
      { rewrite <- hlo. apply (opt_none_wasted b c hb hc hbc). intros o ho.
        pose proof (htri o (nth b (r_med p) 0) (nth c (r_med p) 0) ho (hnth b hb) (hnth c hc)). lra. }
      destruct (@places v n (r_med p) b c w hme) as (x & y & hx & hy & hxy & e); rewrite ?h1; auto.
      specialize (hpos x y hx hy hxy). lra.
  Qed.
End End_.

(** C94, swap algorithms.  [order] and [orc]: any order of the candidates, any schedule of the parallel searches. *)
Theorem C94_swap_algorithms {Nt Lt : Type} `{HLL : LossLaws Nt Lt} (M : Mat Nt) n D orc order med maxiter :
  diss_matrix M n D -> sizes n (length med) -> medoids n (length med) med -> 2 <= length med ->
  Permutation order (seq 0 n) -> valid_oracle orc ->
  all_swap_runs (Lt := Lt) M orc order med maxiter (fun m => exists p, m = Ok p /\ (r_iter p < maxiter ->
    well_spread (vals D) n (length med) p /\ none_wasted vL (vals D) n (length med) p /\
    (metric n (vals D) -> apart (vals D) n (length med) p))).
Proof.
  intros hd hs hm h2 hp hor. destruct (perm_order n order hp) as [hnd ho]. pose proof (proj2 (proj1 (emb_vals hd))) as hv.
  assert (hk : 2 <= length med \/ symmetric n (vals D)) by auto.
  assert (G : forall p : pam_result Lt, medoids n (length med) (r_med p) -> length (r_assi p) = n ->
    (forall o, o < n -> nearest (vals D) o (r_med p) (nth o (r_assi p) 0)) -> swap_optimal (vals D) n (r_med p) ->
    (vL (r_loss p) == tdev (vals D) n (r_med p))%Q ->
    well_spread (vals D) n (length med) p /\ none_wasted vL (vals D) n (length med) p /\
    (metric n (vals D) -> apart (vals D) n (length med) p)).
  { intros p h1 h3 h4 h5 h6. split; [eapply opt_spread; eauto|]. split; [eapply opt_none_wasted; eauto|].
    intros hme. eapply opt_apart; eauto. }
  destruct (fasterpam_all (Lt := Lt) hd maxiter hs hm) as (r1 & e1 & h1).
  destruct (rand_fasterpam_all (Lt := Lt) hd maxiter hs hm hnd ho) as (r2 & e2 & h2').
  destruct (C13_schedule_independent (Lt := Lt) M n D orc order med maxiter hd hs hm ho hor)
    as (r2' & r3 & e2' & e3 & p1 & p0 & p2 & p3 & p4). rewrite e2 in e2'. injection e2' as <-.
  destruct (fastpam1_all (Lt := Lt) hd maxiter hs hm) as (r4 & e4 & e5 & h4).
  unfold all_swap_runs. split; [|split; [|split; [|split]]].
  - exists r1. split; [exact e1|]. intros hlt. apply G; try apply h1; auto.
  - exists r2. split; [exact e2|]. intros hlt. apply G; try apply h2'; auto.
  - exists r3. split; [exact e3|]. intros hlt. assert (hlt2 : r_iter r2 < maxiter) by lia.
    apply G; rewrite <- ?p0, <- ?p1, <- ?p4; try apply h2'; auto.
  - exists r4. split; [exact e4|]. intros hlt. apply G; try apply h4; auto.
  - exists r4. split; [exact e5|]. intros hlt. apply G; try apply h4; auto.
Qed.
Print Assumptions C94_swap_algorithms.

(** a pair of duplicates and three further objects on a line; the swap algorithms get a pair of duplicates as initial medoids *)
Definition rows_tw : list (list Z) :=
  [[0; 0; 10; 11; 12]; [0; 0; 10; 11; 12]; [10; 10; 0; 1; 2]; [11; 11; 1; 0; 1]; [12; 12; 2; 1; 0]]%Z.
Definition m_tw : Mat Z := mat_of_rows rows_tw.
Lemma tw_diss : diss_matrix m_tw 5 (entries rows_tw). Proof. apply rows_diss; [lia|reflexivity]. Qed.
Lemma tw_metric : metric 5 (vals (entries rows_tw)). Proof. apply rows_metric; [lia|reflexivity..]. Qed.
Lemma tw_med : medoids 5 3 [0; 1; 3]. Proof. apply meds_ok. reflexivity. Qed.
Lemma tw_perm : Permutation [3; 0; 1; 4; 2] (seq 0 5).
Proof. apply NoDup_Permutation; [repeat constructor; simpl; lia|apply seq_NoDup|]. intros x. rewrite in_seq. simpl. lia. Qed.
Definition C94_case := C94_swap_algorithms (Lt := Z) m_tw 5 (entries rows_tw) P_Pam.orc2 [3; 0; 1; 4; 2] [0; 1; 3] 10 tw_diss s53 tw_med
  (le_S _ _ (le_n 2)) tw_perm P_Pam.orc2_ok.
Example C94_value : fasterpam (Lt := Z) m_tw [0; 1; 3] 10 = Ok (mkPR 1%Z [1; 1; 0; 2; 2] 2 1 [2; 1; 3]).
Proof. vm_compute. reflexivity. Qed.

(** C94, PAM with BUILD.  BUILD may stop with fewer medoids, but not if there are [k] different places. *)
Theorem C94_pam {Nt Lt : Type} `{HLL : LossLaws Nt Lt} (M : Mat Nt) n D k maxiter :
  diss_matrix M n D -> sizes n k -> metric n (vals D) ->
  exists p : pam_result Lt, pam M k maxiter = Ok p /\
    (forall w, medoids n k w -> (forall x y, In x w -> In y w -> x <> y -> (0 < vals D x y)%Q) -> length (r_med p) = k) /\
    (r_iter p < maxiter -> apart (vals D) n (length (r_med p)) p).
Proof.
  intros hd hs hme. pose proof (proj2 (proj1 (emb_vals hd))) as hv.
  destruct (C17_pam_is_build_swap (Lt := Lt) M n D k maxiter hd hs)
    as (p & p' & loss & assi & meds & e & eb & ep & h1 & h2 & h3 & h4 & h5 & h6).
  exists p. split; [exact e|].
  pose proof (pam_build_ok (Lt := Lt) hd hs) as hb. apply oks_elim with (2 := eb) in hb.
  destruct hb as (b1 & b2 & _ & b3 & _ & _ & b4 & _).
  assert (hs' : sizes n (length meds)) by (destruct hs as (a1 & a2 & a3); split; [lia|split; [auto|lia]]).
  destruct (fastpam1_all (Lt := Lt) hd maxiter hs' b2) as (r & _ & er & hall). rewrite ep in er. injection er as <-.
  assert (hk : 2 <= length meds \/ symmetric n (vals D)) by (right; apply hme).
  assert (hm : medoids n (length (r_med p)) (r_med p)).
  { pose proof (sa_medoids hall) as (q1 & q2 & q3). rewrite h1. split; auto. }
  split.
  - intros w (w1 & w2 & w3) hpos. pose proof (proj1 (sa_medoids hall)) as hlm. rewrite <- h1 in hlm. rewrite hlm.
    destruct (Nat.eq_dec (length meds) k) as [|hne]; [assumption|]. exfalso. destruct b4 as [b4|b4]; [lia|].
    destruct (@few_places (vals D) n meds w hme) as (x & y & hx & hy & hxy & e0); auto.
    + intros ->. simpl in hs'. destruct hs'. lia.
    + apply b2.
    + lia.
    + specialize (hpos x y hx hy hxy). lra.
  - intros hlt. apply opt_apart; auto.
    + rewrite h2. apply hall.
    + rewrite h1, h2. apply hall.
    + rewrite h1. apply hall; auto. lia.
    + rewrite h1, h5. apply hall. exact hk.
Qed.
Print Assumptions C94_pam.
Definition C94_pam_case := C94_pam (Lt := Z) m_tw 5 (entries rows_tw) 3 10 tw_diss s53 tw_metric.

(** C94 in binary64, up to the rounding error; unless the run stopped because the last pass did not lower the computed loss. *)
Theorem C94_f64_fasterpam {Nt : Type} `{HO : OrdLaws Nt} `{HF : FromN Nt f64} (M : Mat Nt) n D order med maxiter mx :
  diss_matrix M n D -> exact_from n D -> at_most n D mx -> sizes n (length med) -> medoids n (length med) med ->
  2 <= length med -> lfrom (nzero : Nt) = S754_zero false -> Permutation order (seq 0 n) ->
  exists r : pam_result f64, rand_fasterpam M order med maxiter = Ok r /\
    (r_iter r < maxiter -> stalled (rand_fasterpam M order med) r \/
      forall b c e x, b < length med -> c < length med -> b <> c -> x < n -> (0 <= e)%Q ->
        (forall o, (o < n)%nat -> vals D o (nth c (r_med r) 0%nat) <= vals D o (nth b (r_med r) 0%nat) + e)%Q ->
        (mindist (vals D) x (r_med r) <=
         inject_Z (Z.of_nat (count_occ Nat.eq_dec (r_assi r) b)) * e + rounding n mx)%Q).
Proof.
  intros hd he hmx hs hm hk hz hp. destruct (perm_order n order hp) as [hnd ho].
  destruct (C61_fasterpam M n D order med maxiter mx hd he hmx hs hm hk hz hp) as (r & e & _ & _ & h).
  destruct (C40_fasterpam (Lt := f64) M n D med maxiter order hd hs hm ho) as (_ & r' & _ & e' & _ & ((m1 & m2 & m3) & a2 & a3 & _) & _).
  rewrite e in e'. injection e' as <-. exists r. split; [exact e|]. intros hlt. destruct (h hlt) as [hopt|hst]; [|left; exact hst].
  right. intros b c ee x hb hc hbc hx hee hcl. pose proof (proj2 (proj1 (emb_vals hd))) as hv.
  apply close_swap_near with (n := n) (c := c); rewrite ?m1; auto. apply hopt; rewrite ?m1; auto.
Qed.
Print Assumptions C94_f64_fasterpam.
Definition C94_f64_case := C94_f64_fasterpam _ 5 _ [4; 2; 0; 1; 3] [0; 1] 10 1 f1_diss
  (f64_exact_from _ _ _ (diss_nonneg _ _ _ f1_diss)) f1_at_most s52 k52 (le_n 2) eq_refl perm5'.

(** The alternating algorithm keeps both duplicates, however many iterations it is given, although there are [k] different places. *)
Theorem C94_alternating_refuted : exists (M : Mat Z) D med, diss_matrix M 5 D /\ metric 5 (vals D) /\ medoids 5 3 med /\
  (exists w, medoids 5 3 w /\ forall x y, In x w -> In y w -> x <> y -> (0 < vals D x y)%Q) /\
  forall maxiter, exists p : pam_result Z, alternating M med maxiter = Ok p /\ r_med p = med /\
    (vals D (nth 0 (r_med p) 0%nat) (nth 1 (r_med p) 0%nat) == 0)%Q /\ r_iter p <= 1.
Proof.
  exists m_tw, (entries rows_tw), [0; 1; 3]. split; [apply tw_diss|]. split; [apply tw_metric|]. split; [apply tw_med|]. split.
  - exists [0; 2; 3]. split; [apply meds_ok; reflexivity|].
    intros x y [<-|[<-|[<-|[]]]] [<-|[<-|[<-|[]]]] h; try (exfalso; apply h; reflexivity); vm_compute; reflexivity.
  - intros maxiter. destruct maxiter as [|mi].
    + eexists. split; [vm_compute; reflexivity|]. split; [reflexivity|]. split; [vm_compute; reflexivity|]. simpl. lia.
    + destruct (P_Reference.C55_alternating_is_lloyd (Lt := Z) m_tw 5 (entries rows_tw) [0; 1; 3] (S mi) tw_diss s53 tw_med)
        as (p & e & h & _).
      assert (hp : alternate (vals (entries rows_tw)) 5 (S mi) [0; 1; 3] 0 = ([0; 1; 3], 1)) by (vm_compute; reflexivity).
      rewrite hp in h. injection h as h1 h2. exists p. split; [exact e|]. rewrite h1, h2.
      split; [reflexivity|]. split; [vm_compute; reflexivity|lia].
Qed.
Print Assumptions C94_alternating_refuted.

(** Nor do the medoid silhouette algorithms: two duplicates as medoids can even be the best choice. *)
Theorem C94_msc_refuted : exists (M : Mat Z) D med, diss_matrix M 5 D /\ metric 5 (vals D) /\ medoids 5 3 med /\
  (vals D (nth 0 med 0%nat) (nth 1 med 0%nat) == 0)%Q /\
  (exists w, medoids 5 3 w /\ forall x y, In x w -> In y w -> x <> y -> (0 < vals D x y)%Q) /\
  (forall m, medoids 5 3 m -> (med_sil (vals D) 5 m <= med_sil (vals D) 5 med)%Q) /\
  forall maxiter, 1 <= maxiter ->
    (exists p : pam_result Q, fastermsc M med maxiter = Ok p /\ r_med p = med) /\
    (exists p : pam_result Q, fastmsc M med maxiter = Ok p /\ r_med p = med) /\
    (exists p : pam_result Q, pammedsil_swap M med maxiter = Ok p /\ r_med p = med).
Proof.
  exists m_tw, (entries rows_tw), [0; 1; 3]. split; [apply tw_diss|]. split; [apply tw_metric|]. split; [apply tw_med|].
  split; [vm_compute; reflexivity|]. split; [|split].
  - exists [0; 2; 3]. split; [apply meds_ok; reflexivity|].
    intros x y [<-|[<-|[<-|[]]]] [<-|[<-|[<-|[]]]] h; try (exfalso; apply h; reflexivity); vm_compute; reflexivity.
  - intros m (hl & hnd & hin). destruct m as [|a [|b [|c [|]]]]; try discriminate hl.
    assert (ha : a < 5) by (apply hin; simpl; auto). assert (hb : b < 5) by (apply hin; simpl; auto).
    assert (hc : c < 5) by (apply hin; simpl; auto).
    assert (hab : a <> b). { intros ->. inversion hnd as [|? ? h _]; subst. apply h. simpl. auto. }
    assert (hac : a <> c). { intros ->. inversion hnd as [|? ? h _]; subst. apply h. simpl. auto. }
    assert (hbc : b <> c). { intros ->. inversion hnd as [|? ? _ h]; subst. inversion h as [|? ? h' _]; subst. apply h'. simpl. auto. }
    clear hl hnd hin. apply Qle_bool_iff.
    do 5 (destruct a as [|a]; [do 5 (destruct b as [|b]; [do 5 (destruct c as [|c]; [first [lia|vm_compute; reflexivity]|]); lia|]); lia|]). lia.
  - intros maxiter hmi. destruct maxiter as [|mi]; [lia|].
    destruct (P_Reference.C54_msc_are_plain_searches (Lt := Q) m_tw 5 (entries rows_tw) [0; 1; 3] (S mi) tw_diss s53 tw_med
      (le_S _ _ (le_n 2))) as ((p1 & e1 & h1) & (p2 & e2 & h2) & (p3 & e3 & h3)).
    assert (hp : eager_swaps (sil_better (vals (entries rows_tw)) 5) (seq 0 5) [0; 1; 3] (S mi) = ([0; 1; 3], 0, 1))
      by (vm_compute; reflexivity).
    assert (hq : best_swaps (sil_better (vals (entries rows_tw)) 5) 5 [0; 1; 3] (S mi) = ([0; 1; 3], 0, 1))
      by (vm_compute; reflexivity).
    rewrite hp in h1. rewrite hq in h2, h3. split; [exists p1|split; [exists p2|exists p3]]; (split; [assumption|congruence]).
Qed.
Print Assumptions C94_msc_refuted.
