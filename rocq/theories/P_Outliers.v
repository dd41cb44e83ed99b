(** P_Outliers.v -- property C96: the swap algorithms make every far outlier a medoid, if there are fewer outliers than medoids;
    the alternating algorithm does not.
    Every theorem is followed by a concrete input which meets its hypotheses. *)
From Coq Require Import ZArith QArith Lqa Lia Permutation.
From Coq.Floats Require Import SpecFloat.
From Verif Require Import Base Num M_Mat M_Util M_Fasterpam M_Pam M_Alternating M_ParFasterpam Inst Hoare Spec SpecFacts Laws
  PamShape PamExact FpMain PamMain ParFacts BuildFacts Reference Twins Ex P_Fasterpam P_Pam P_Restart P_Approx.
From Verif Require Import FloatSil FloatQuality P_Float P_Rounding P_FloatOpt P_Twins.
From Verif Require P_Reference.
Open Scope nat_scope.

(** [far]: fewer than [k] outliers.  The other objects are at most [w] from each other, and each outlier is more than [n * w + slack]
    from every other object. *)
Definition outliers (v : diss) (n k : nat) (w slack : Q) (far : list nat) : Prop :=
  NoDup far /\ length far < k /\ (forall y, In y far -> y < n) /\
  (forall x y, x < n -> y < n -> ~ In x far -> ~ In y far -> (v x y <= w)%Q) /\
  (forall x y, In y far -> x < n -> x <> y -> (inject_Z (Z.of_nat n) * w + slack < v y x)%Q).

(** fewer outliers than medoids, and one of them is no medoid: there are two medoids among the other objects *)
Lemma two_inner (far med : list nat) y : NoDup far -> NoDup med -> length far < length med -> In y far -> ~ In y med ->
  exists b c, b < length med /\ c < length med /\ b <> c /\ ~ In (nth b med 0) far /\ ~ In (nth c med 0) far.
Proof.
  intros hf hm hl hy hym. set (isf := fun x => if in_dec Nat.eq_dec x far then true else false).
  set (inner := filter (fun x => negb (isf x)) med). set (outer := filter isf med).
  assert (hi : forall x, In x inner <-> In x med /\ ~ In x far).
  { intros x. unfold inner, isf. rewrite filter_In. destruct (in_dec Nat.eq_dec x far); simpl; intuition discriminate. }
  assert (ho : forall x, In x outer -> In x med /\ In x far).
  { intros x. unfold outer, isf. rewrite filter_In. destruct (in_dec Nat.eq_dec x far); simpl; intuition discriminate. }
  assert (hsum : length inner + length outer = length med).
  { unfold inner, outer. clear. induction med as [|a l IH]; [reflexivity|]. simpl. destruct (isf a); simpl; lia. }
  assert (hlo : length (y :: outer) <= length far).
  { apply NoDup_incl_length.
    - constructor; [intros h; apply hym, ho; exact h|apply NoDup_filter, hm].
    - intros x [<-|h]; [exact hy|apply ho; exact h]. }
  assert (hni : NoDup inner) by (apply NoDup_filter, hm).
  simpl in hlo. destruct inner as [|p [|q l]] eqn:e; simpl in hsum; [lia|lia|].
  destruct (proj1 (hi p) (or_introl eq_refl)) as [hp1 hp2].
  destruct (proj1 (hi q) (or_intror (or_introl eq_refl))) as [hq1 hq2].
  destruct (In_nth _ _ 0 hp1) as (b & hb & eb). destruct (In_nth _ _ 0 hq1) as (c & hc & ec).
  exists b, c. split; [exact hb|]. split; [exact hc|]. split; [|rewrite eb, ec; auto].
  intros ->. rewrite eb in ec. subst q. inversion hni as [|? ? h _]; subst. apply h. left. reflexivity.
Qed.

(** medoids which are well spread include the outliers *)
Lemma spread_outliers v n (med assi : list nat) w slack far : metric n v -> medoids n (length med) med -> length assi = n ->
  outliers v n (length med) w slack far ->
  (forall b c x, b < length med -> c < length med -> b <> c -> x < n ->
    (mindist v x med <=
     inject_Z (Z.of_nat (count_occ Nat.eq_dec assi b)) * v (nth b med 0%nat) (nth c med 0%nat) + slack)%Q) ->
  incl far med.
Proof.
  intros hme (_ & hnd & hin) hla (hf & hl & hfn & hw & hfar) hsp y hy.
  destruct (in_dec Nat.eq_dec y med) as [|hym]; [assumption|exfalso].
  destruct (two_inner far med y hf hnd hl hy hym) as (b & c & hb & hc & hbc & nb & nc).
  assert (hbn : nth b med 0 < n) by (apply hin, nth_In; exact hb).
  assert (hcn : nth c med 0 < n) by (apply hin, nth_In; exact hc).
  pose proof (hsp b c y hb hc hbc (hfn y hy)) as h. pose proof (hw _ _ hbn hcn nb nc) as h1.
  pose proof (proj2 (proj1 hme) _ _ hbn hcn) as h0.
  destruct (mindist_in v y (med := med)) as (m & hm & e); [intros ->; simpl in hb; lia|].
  assert (hmy : m <> y) by (intros ->; contradiction).
  pose proof (hfar m y hy (hin m hm) hmy) as h2. rewrite <- e in h2.
  pose proof (count_occ_bound Nat.eq_dec b assi) as h3. rewrite hla in h3.
  assert (h4 : (inject_Z (Z.of_nat (count_occ Nat.eq_dec assi b)) <= inject_Z (Z.of_nat n))%Q) by (rewrite <- Zle_Qle; lia).
  assert (h5 : (0 <= inject_Z (Z.of_nat n))%Q) by (change 0%Q with (inject_Z 0); rewrite <- Zle_Qle; lia).
  set (s := inject_Z (Z.of_nat (count_occ Nat.eq_dec assi b))) in *. set (nn := inject_Z (Z.of_nat n)) in *.
  set (d := v (nth b med 0%nat) (nth c med 0%nat)) in *.
  assert (h6 : (s * d <= nn * d)%Q) by (apply Qmult_le_compat_r; assumption).
  assert (h7 : (nn * d <= nn * w)%Q) by (rewrite (Qmult_comm nn d), (Qmult_comm nn w); apply Qmult_le_compat_r; assumption).
  lra.
Qed.

(** C96, swap algorithms.  [order] and [orc]: any order of the candidates, any schedule of the parallel searches. *)
Theorem C96_swap_algorithms {Nt Lt : Type} `{HLL : LossLaws Nt Lt} (M : Mat Nt) n D orc order med maxiter w far :
  diss_matrix M n D -> sizes n (length med) -> medoids n (length med) med -> 2 <= length med ->
  Permutation order (seq 0 n) -> valid_oracle orc -> metric n (vals D) -> outliers (vals D) n (length med) w 0 far ->
  all_swap_runs (Lt := Lt) M orc order med maxiter (fun m => exists p, m = Ok p /\ (r_iter p < maxiter -> incl far (r_med p))).
Proof.
  intros hd hs hm h2 hp hor hme hfar. destruct (perm_order n order hp) as [hnd ho]. pose proof (proj2 (proj1 (emb_vals hd))) as hv.
  assert (hk : 2 <= length med \/ symmetric n (vals D)) by auto.
  assert (G : forall p : pam_result Lt, medoids n (length med) (r_med p) -> length (r_assi p) = n ->
    (forall o, o < n -> nearest (vals D) o (r_med p) (nth o (r_assi p) 0)) -> swap_optimal (vals D) n (r_med p) ->
    (vL (r_loss p) == tdev (vals D) n (r_med p))%Q -> incl far (r_med p)).
  { intros p h1 h3 h4 h5 h6. pose proof (opt_apart (Lt := Lt) _ n _ p hv h1 h3 h4 h5 h6 hme) as [ha _]. pose proof (proj1 h1) as hl.
    rewrite <- hl in *. apply spread_outliers with (v := vals D) (n := n) (assi := r_assi p) (w := w) (slack := 0%Q); auto.
    intros b c x hb hc hbc hx. specialize (ha b c x hb hc hbc hx). lra. }
  destruct (fasterpam_all (Lt := Lt) hd maxiter hs hm) as (r1 & e1 & h1).
  destruct (rand_fasterpam_all (Lt := Lt) hd maxiter hs hm hnd ho) as (r2 & e2 & h2').
  destruct (C13_schedule_independent (Lt := Lt) M n D orc order med maxiter hd hs hm ho hor)
    as (r2' & r3 & e2' & e3 & p1 & p0 & p2 & p3 & p4). rewrite e2 in e2'. injection e2' as <-.
  destruct (fastpam1_all (Lt := Lt) hd maxiter hs hm) as (r4 & e4 & e5 & h4).
  unfold all_swap_runs. split; [|split; [|split; [|split]]].
  - exists r1. split; [exact e1|]. intros hlt. apply G; try apply h1; auto.
  - exists r2. split; [exact e2|]. intros hlt. apply G; try apply h2'; auto.
  - exists r3. split; [exact e3|]. intros hlt. assert (hlt2 : r_iter r2 < maxiter) by lia.
    apply G; rewrite <- ?p0, <- ?p1, <- ?p4; try apply h2'; auto.
  - exists r4. split; [exact e4|]. intros hlt. apply G; try apply h4; auto.
  - exists r4. split; [exact e5|]. intros hlt. apply G; try apply h4; auto.
Qed.
Print Assumptions C96_swap_algorithms.

(** five objects on a line, the last one far away *)
Definition rows_ol : list (list Z) :=
  [[0; 1; 2; 3; 100]; [1; 0; 1; 2; 99]; [2; 1; 0; 1; 98]; [3; 2; 1; 0; 97]; [100; 99; 98; 97; 0]]%Z.
Definition m_ol : Mat Z := mat_of_rows rows_ol.
Lemma ol_diss : diss_matrix m_ol 5 (entries rows_ol). Proof. apply rows_diss; [lia|reflexivity]. Qed.
Lemma ol_metric : metric 5 (vals (entries rows_ol)). Proof. apply rows_metric; [lia|reflexivity..]. Qed.
Lemma ol_far : outliers (vals (entries rows_ol)) 5 2 3 0 [4].
Proof.
  split; [repeat constructor; simpl; tauto|]. split; [simpl; lia|]. split; [intros y [<-|[]]; lia|]. split.
  - intros x y hx hy nx ny. simpl in nx, ny.
    do 4 (destruct x as [|x]; [do 4 (destruct y as [|y]; [vm_compute; discriminate|]); lia|]). lia.
  - intros x y [<-|[]] hx hne. do 4 (destruct x as [|x]; [vm_compute; reflexivity|]). lia.
Qed.
Definition C96_case := C96_swap_algorithms (Lt := Z) m_ol 5 (entries rows_ol) P_Pam.orc2 [3; 0; 1; 4; 2] [0; 2] 10 3 [4] ol_diss s52
  ltac:(apply meds_ok; reflexivity) (le_n 2) tw_perm P_Pam.orc2_ok ol_metric ol_far.
Example C96_value : exists p, fasterpam (Lt := Z) m_ol [0; 2] 10 = Ok p /\ r_iter p < 10 /\ In 4 (r_med p).
Proof. eexists. split; [vm_compute; reflexivity|]. simpl. split; [lia|auto]. Qed.

(** C96, PAM with BUILD *)
Theorem C96_pam {Nt Lt : Type} `{HLL : LossLaws Nt Lt} (M : Mat Nt) n D k maxiter w far :
  diss_matrix M n D -> sizes n k -> metric n (vals D) -> (0 <= w)%Q -> outliers (vals D) n k w 0 far ->
  exists p : pam_result Lt, pam M k maxiter = Ok p /\ (r_iter p < maxiter -> incl far (r_med p)).
Proof.
  intros hd hs hme hw hfar. pose proof (proj2 (proj1 (emb_vals hd))) as hv.
  destruct (C17_pam_is_build_swap (Lt := Lt) M n D k maxiter hd hs)
    as (p & p' & loss & assi & meds & e & eb & ep & h1 & h2 & h3 & h4 & h5 & h6).
  exists p. split; [exact e|]. intros hlt.
  pose proof (pam_build_ok (Lt := Lt) hd hs) as hb. apply oks_elim with (2 := eb) in hb.
  destruct hb as (b1 & b2 & _ & b3 & _ & _ & b4 & _).
  assert (hs' : sizes n (length meds)) by (destruct hs as (a1 & a2 & a3); split; [lia|split; [auto|lia]]).
  destruct (fastpam1_all (Lt := Lt) hd maxiter hs' b2) as (r & _ & er & hall). rewrite ep in er. injection er as <-.
  pose proof (sa_medoids hall) as (q1 & q2 & q3). rewrite <- h1 in q1, q2, q3.
  destruct (Nat.eq_dec (length meds) k) as [hk|hne].
  - destruct (C94_pam (Lt := Lt) M n D k maxiter hd hs hme) as (p2 & e2 & _ & ha). rewrite e in e2. injection e2 as <-.
    specialize (ha hlt) as [ha _]. rewrite <- hk, <- q1 in hfar.
    apply spread_outliers with (v := vals D) (n := n) (assi := r_assi p) (w := w) (slack := 0%Q); auto.
    + split; auto.
    + rewrite h2. apply hall.
    + intros b c x hb hc hbc hx. specialize (ha b c x hb hc hbc hx). lra.
  - destruct b4 as [b4|b4]; [lia|]. destruct hfar as (_ & _ & hfn & _ & hfar). intros y hy.
    pose proof (sa_obj hall (or_intror (proj1 (proj2 hme)))) as hle. rewrite <- h1 in hle.
    assert (ht : (tdev (vals D) n (r_med p) == 0)%Q).
    { apply Qle_antisym; [lra|]. unfold tdev. rewrite <- (sumQ_zero (seq 0 n)). apply sumQ_le. intros o ho.
      apply in_seq in ho. apply mindist_nonneg with (n := n); auto. lia. }
    destruct (in_dec Nat.eq_dec y (r_med p)) as [|hny]; [assumption|exfalso].
    destruct (mindist_in (vals D) y (med := r_med p)) as (m & hm & em).
    { intros h0. rewrite h0 in q1. simpl in q1. destruct hs'. lia. }
    assert (hmy : m <> y) by (intros ->; contradiction).
    pose proof (hfar m y hy (q3 m hm) hmy) as hlt'. rewrite <- em in hlt'.
    pose proof (tdev_zero (r_med p) hv q3 ht (hfn y hy)) as hz.
    assert (h0 : (0 <= inject_Z (Z.of_nat n) * w)%Q).
    { apply Qmult_le_0_compat; [change 0%Q with (inject_Z 0); rewrite <- Zle_Qle; lia|exact hw]. }
    lra.
Qed.
Print Assumptions C96_pam.
Definition C96_case_pam := C96_pam (Lt := Z) m_ol 5 (entries rows_ol) 2 10 3 [4] ol_diss s52 ol_metric
  ltac:(vm_compute; discriminate) ol_far.

(** C96 in binary64: outliers which exceed the bound by the rounding error; unless the last pass did not lower the computed loss *)
Theorem C96_f64_fasterpam {Nt : Type} `{HO : OrdLaws Nt} `{HF : FromN Nt f64} (M : Mat Nt) n D order med maxiter mx w far :
  diss_matrix M n D -> exact_from n D -> at_most n D mx -> sizes n (length med) -> medoids n (length med) med ->
  2 <= length med -> lfrom (nzero : Nt) = S754_zero false -> Permutation order (seq 0 n) -> metric n (vals D) ->
  outliers (vals D) n (length med) w (rounding n mx) far ->
  exists r : pam_result f64, rand_fasterpam M order med maxiter = Ok r /\
    (r_iter r < maxiter -> stalled (rand_fasterpam M order med) r \/ incl far (r_med r)).
Proof.
  intros hd he hmx hs hm hk hz hp hme hfar. destruct (perm_order n order hp) as [hnd ho].
  destruct (C94_f64_fasterpam M n D order med maxiter mx hd he hmx hs hm hk hz hp) as (r & e & h).
  destruct (C40_fasterpam (Lt := f64) M n D med maxiter order hd hs hm ho) as (_ & r' & _ & e' & _ & ((m1 & m2 & m3) & a2 & a3 & _) & _).
  rewrite e in e'. injection e' as <-. exists r. split; [exact e|]. intros hlt. destruct (h hlt) as [hst|hsp]; [left; exact hst|right].
  rewrite <- m1 in hsp, hfar.
  apply spread_outliers with (v := vals D) (n := n) (assi := r_assi r) (w := w) (slack := rounding n mx); auto.
  - split; auto.
  - intros b c x hb hc hbc hx.
    assert (hbn : nth b (r_med r) 0 < n) by (apply m3, nth_In; exact hb).
    assert (hcn : nth c (r_med r) 0 < n) by (apply m3, nth_In; exact hc).
    apply (hsp b c); auto; [apply hme; auto|]. intros o hon. apply hme; auto.
Qed.
Print Assumptions C96_f64_fasterpam.
(** with integer dissimilarities and binary64 losses *)
Lemma ol_at_most : at_most 5 (entries rows_ol) 100.
Proof.
  split; [vm_compute; discriminate|]. intros x y hx hy.
  do 5 (destruct x; [do 5 (destruct y; [vm_compute; discriminate|]); lia|]). lia.
Qed.
Lemma ol_far_f64 : outliers (vals (entries rows_ol)) 5 2 3 (rounding 5 100) [4].
Proof.
  pose proof ol_far as (h1 & h2 & h3 & h4 & _). split; [exact h1|]. split; [exact h2|]. split; [exact h3|]. split; [exact h4|].
  intros x y [<-|[]] hx hne. do 4 (destruct x as [|x]; [vm_compute; reflexivity|]). lia.
Qed.

Lemma ol_exact : exact_from 5 (entries rows_ol).
Proof. apply int_exact_from. intros x y hx hy. do 5 (destruct x; [do 5 (destruct y; [vm_compute; discriminate|]); lia|]). lia. Qed.
Definition C96_f64_case := C96_f64_fasterpam m_ol 5 (entries rows_ol) [3; 0; 1; 4; 2] [0; 2] 10 100 3 [4] ol_diss ol_exact ol_at_most s52
  ltac:(apply meds_ok; reflexivity) (le_n 2) eq_refl tw_perm ol_metric ol_far_f64.

(** The alternating algorithm leaves the outlier in the cluster of another object, however many iterations it is given. *)
Theorem C96_alternating_refuted : exists (M : Mat Z) D med w far, diss_matrix M 5 D /\ metric 5 (vals D) /\ medoids 5 2 med /\
  outliers (vals D) 5 2 w 0 far /\
  forall maxiter, exists p : pam_result Z, alternating M med maxiter = Ok p /\ ~ incl far (r_med p).
Proof.
  exists m_ol, (entries rows_ol), [0; 3], 3%Q, [4]. split; [apply ol_diss|]. split; [apply ol_metric|].
  assert (hm : medoids 5 2 [0; 3]) by (apply meds_ok; reflexivity).
  split; [exact hm|]. split; [apply ol_far|].
  intros maxiter. destruct maxiter as [|[|mi]].
  - eexists. split; [vm_compute; reflexivity|]. intros h. specialize (h 4 (or_introl eq_refl)). simpl in h. lia.
  - eexists. split; [vm_compute; reflexivity|]. intros h. specialize (h 4 (or_introl eq_refl)). simpl in h. lia.
  - destruct (P_Reference.C55_alternating_is_lloyd (Lt := Z) m_ol 5 (entries rows_ol) [0; 3] (S (S mi)) ol_diss s52 hm)
      as (p & e & h & _).
    exists p. split; [exact e|]. assert (hp : alternate (vals (entries rows_ol)) 5 (S (S mi)) [0; 3] 0 = ([0; 3], 1)) by (vm_compute; reflexivity).
    rewrite hp in h. injection h as h1 _. rewrite h1. intros h2. specialize (h2 4 (or_introl eq_refl)). simpl in h2. lia.
Qed.
Print Assumptions C96_alternating_refuted.
