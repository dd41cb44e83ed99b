(** P_Rounding.v -- properties C46 and C47: what the rounding of binary64 does to the reported numbers.
    Every theorem is followed by a concrete input which meets its hypotheses. *)
From Coq Require Import ZArith QArith Qabs Lqa Lia.
From Coq.Floats Require Import SpecFloat.
From Verif Require Import Base Num M_Mat M_Util M_Fasterpam M_Pam M_Alternating M_ParFasterpam M_Silhouette M_Msc Inst Hoare Spec
  SpecFacts Laws FloatFacts FloatRound FloatMain FpMain SilFacts SortFacts FloatSil FloatLoss Ex P_Pam P_Float.
Open Scope nat_scope.

(** neither NaN nor infinite, and between two numbers *)
Definition finite_in (lo hi : Q) (x : f64) : Prop := f64_finite x /\ (lo <= f64_val x <= hi)%Q.
(** at most [err] away from a number *)
Definition off_by (err x : Q) (y : f64) : Prop := (Qabs (f64_val y - x) <= err)%Q.
(** the losses of all entries are between 0 and 2^970 (about 10^292) *)
Definition moderate {Nt} `{FromN Nt f64} (n : nat) (D : nat -> nat -> Nt) : Prop :=
  forall x y, x < n -> y < n -> finite_in 0 (2 ^ 970) (lfrom (D x y)).

Lemma in_within lo hi x : within lo hi x <-> finite_in lo hi x.
Proof. unfold within, finite_in. tauto. Qed.
Lemma close_off e x y : close e x y -> off_by e x y.
Proof. intros [h1 h2]. apply Qabs_Qle_condition. auto. Qed.

(** C46.  silhouette and par_silhouette in binary64: whatever is rounded, all values are numbers
    between -1 and 1. *)
Theorem C46_silhouette {Nt : Type} `{HF : FromN Nt f64} (M : Mat Nt) n D assi samples :
  is_matrix M n D -> moderate n D -> 1 <= length assi <= n -> (N.of_nat n <= 4294967295)%N ->
  exists value vec value', silhouette M assi samples = Ok (value, vec) /\ par_silhouette M assi = Ok value' /\
    finite_in (-1) 1 value /\ finite_in (-1) 1 value' /\ (forall s, In s vec -> finite_in (-1) 1 s).
Proof.
  intros hm hb hl hn.
  assert (hb' : forall x y, x < n -> y < n -> within 0 (2 ^ big_g) (lfrom (D x y))) by (intros; apply in_within, hb; auto).
  pose proof (silhouette_within hm hb' assi samples hl ltac:(lia)) as h1. apply oks_inv in h1 as ([value vec] & e1 & h1 & h2).
  pose proof (par_silhouette_within hm hb' assi hl ltac:(lia)) as h3. apply oks_inv in h3 as (value' & e2 & h3).
  exists value, vec, value'. split; [auto|]. split; [auto|]. split; [apply in_within; exact h1|].
  split; [apply in_within; exact h3|]. intros s hs. apply in_within, h2, hs.
Qed.
Print Assumptions C46_silhouette.

(** a check of [moderate] *)
Definition moderate_b (rows : list (list f64)) (n : nat) : bool :=
  forallb (fun i => forallb (fun j => f64_b (fentries rows i j) && Qle_bool (f64_val (fentries rows i j)) (2 ^ 970)) (seq 0 n)) (seq 0 n).
Lemma moderate_rows rows n : moderate_b rows n = true -> moderate n (fentries rows).
Proof.
  intros h x y hx hy. pose proof (forallb_seq _ h hx) as h1. cbv beta in h1. pose proof (forallb_seq _ h1 hy) as h2.
  cbv beta in h2. apply andb_true_iff in h2 as [h2 h3]. apply Qle_bool_iff in h3. unfold finite_in. cbn [lfrom FromN_f64_f64].
  destruct (fentries rows x y) as [s|s| |s m e]; try discriminate h2; cbn [f64_b f64_finite f64_val] in *.
  - split; [exact I|]. split; [apply Qle_refl|exact h3].
  - apply andb_true_iff in h2 as [h4 h5]. split; [exact h5|]. split; [|exact h3]. destruct s; [discriminate h4|].
    apply Qlt_le_weak, f64_pos.
Qed.
Lemma f1_moderate : moderate 5 (fentries rows_f1).
Proof. apply moderate_rows. vm_compute. reflexivity. Qed.
Definition C46_case := C46_silhouette _ 5 _ [0; 2; 0; 1; 2] true (proj1 f1_diss) f1_moderate ltac:(simpl; lia)
  ltac:(vm_compute; discriminate).

(** With larger entries the sums overflow and the result is NaN. *)
Definition rows_huge : list (list f64) := Eval vm_compute in map (map (fun z => binary_normalize fprec femax z 1023 false))
  [[0; 1; 1; 1; 1; 1]; [1; 0; 1; 1; 1; 1]; [1; 1; 0; 1; 1; 1]; [1; 1; 1; 0; 1; 1]; [1; 1; 1; 1; 0; 1]; [1; 1; 1; 1; 1; 0]]%Z.
Theorem C46_overflow_refuted : exists (M : Mat f64) D vec,
  nonneg_matrix M 6 D /\ silhouette M [0; 0; 0; 1; 1; 1] true = Ok (S754_nan, vec) /\ In S754_nan vec.
Proof.
  exists (mat_of_rows rows_huge), (fentries rows_huge). eexists.
  split; [apply diss_nonneg, frows_diss; [lia|reflexivity]|]. split; [vm_compute; reflexivity|]. vm_compute. auto.
Qed.
Print Assumptions C46_overflow_refuted.

(** ... and of an empty assignment the average is 0/0. *)
Theorem C46_empty_refuted : exists vec, silhouette (Lt := f64) (mat_of_rows rows_f1) [] true = Ok (S754_nan, vec).
Proof. eexists. vm_compute. reflexivity. Qed.
Print Assumptions C46_empty_refuted.

(** medoid_silhouette, for all finite entries which are exact as losses (for f64: all): between 0 and
    1, and within (n+7)/2^54 of the exact value; the samples are within 2^-52 of theirs. *)
Theorem C46_medoid_silhouette {Nt : Type} `{HO : OrdLaws Nt} `{HF : FromN Nt f64} (M : Mat Nt) n D meds samples :
  nonneg_matrix M n D -> exact_from n D -> 2 <= length meds <= n -> (N.of_nat n <= 4294967295)%N ->
  (forall m, In m meds -> m < n) ->
  exists value vec, medoid_silhouette M meds samples = Ok (value, vec) /\
    finite_in 0 1 value /\
    off_by ((inject_Z (Z.of_nat n) + 7) * 2 ^ (-54)) (med_sil (vals D) n meds) value /\
    length vec = (if samples then n else 0) /\
    (forall i, i < length vec -> finite_in 0 1 (nth i vec lzero) /\
       off_by (2 ^ (-52)) (1 - near_ratio (vals D) i meds) (nth i vec lzero)).
Proof.
  intros hd he hk hn hin. pose proof (medoid_silhouette_float hd he meds samples hk hn hin) as h.
  apply oks_inv in h as ([value vec] & e & h1 & h2 & h3 & h4). cbn [fst snd] in *. exists value, vec.
  split; [auto|]. split; [apply in_within; exact h1|]. split; [apply close_off; exact h2|]. split; [exact h3|].
  intros i hi. destruct (h4 i hi) as [h5 h6]. split; [apply in_within; exact h5|apply close_off; exact h6].
Qed.
Print Assumptions C46_medoid_silhouette.

Lemma f64_exact_from n (D : nat -> nat -> f64) M : nonneg_matrix M n D -> exact_from n D.
Proof. intros h x y hx hy. split; [apply h; auto|reflexivity]. Qed.
Definition C46_medoid_case := C46_medoid_silhouette _ 5 _ [4; 1; 0] true (diss_nonneg _ _ _ f1_diss)
  (f64_exact_from _ _ _ (diss_nonneg _ _ _ f1_diss)) ltac:(simpl; lia) ltac:(vm_compute; discriminate) ltac:(simpl; lia).

(** i32 dissimilarities with f64 losses *)
Lemma int_exact_from n (D : nat -> nat -> Z) : (forall x y, x < n -> y < n -> (Z.abs (D x y) <= 2 ^ 53)%Z) -> exact_from n D.
Proof.
  intros h x y hx hy. destruct (FloatExact.grid_of_Z _ (h x y hx hy)) as [h1 h2]. split; [exact h1|].
  change (f64_val (f64_of_Z (D x y)) == inject_Z (D x y))%Q. rewrite h2. change (2 ^ 0)%Q with 1%Q. ring.
Qed.
Lemma d6_exact : exact_from 6 d6.
Proof. apply int_exact_from. intros x y hx hy. do 6 (destruct x; [do 6 (destruct y; [vm_compute; discriminate|]); lia|]). lia. Qed.
Definition C46_int_case := C46_medoid_silhouette m6 6 d6 [0; 1; 3] true (diss_nonneg _ _ _ m6_diss) d6_exact
  ltac:(simpl; lia) ltac:(vm_compute; discriminate) ltac:(simpl; lia).

(** fastermsc with three or more medoids: likewise for the returned medoids. *)
Theorem C46_fastermsc {Nt : Type} `{HO : OrdLaws Nt} `{HF : FromN Nt f64} (M : Mat Nt) n D med maxiter :
  diss_matrix M n D -> exact_from n D -> sizes n (length med) -> medoids n (length med) med -> 3 <= length med ->
  exists r : pam_result f64, fastermsc M med maxiter = Ok r /\ well_assigned n (length med) (vals D) r /\
    finite_in 0 1 (r_loss r) /\
    off_by ((inject_Z (Z.of_nat n) + 7) * 2 ^ (-54)) (med_sil (vals D) n (r_med r)) (r_loss r).
Proof.
  intros hd he hs hm hk.
  destruct (C40_fastermsc (Lt := f64) M n D med maxiter hd hs hm hk) as (r & e & hw & sec & hsec & hloss).
  exists r. split; [exact e|]. split; [exact hw|]. destruct hw as ((hl & _ & hin) & _ & hnear & _).
  destruct hs as (hn1 & hn2 & hkn).
  set (g := fun o => float_ratio (D o (nth (nth o (r_assi r) 0) (r_med r) 0)) (D o (nth (nth o sec 0) (r_med r) 0)) : f64) in *.
  assert (hu : (N.of_nat n <= 4294967295)%N) by lia.
  assert (hg : forall o, o < n -> within 0 1 (g o) /\ close (2 ^ (-53)) (near_ratio (vals D) o (r_med r)) (g o)).
  { intros o ho. destruct (hnear o ho) as [ha hmin]. destruct (hsec o ho) as (hb & hba & hsm).
    set (a := nth o (r_assi r) 0) in *. set (b := nth o sec 0) in *.
    assert (hr : (near_ratio (vals D) o (r_med r) == vals D o (nth a (r_med r) 0%nat) / vals D o (nth b (r_med r) 0%nat))%Q).
    { apply near_ratio_pos; auto. }
    assert (ia : nth a (r_med r) 0 < n) by (apply hin, nth_In; auto).
    assert (ib : nth b (r_med r) 0 < n) by (apply hin, nth_In; auto).
    assert (hle : (vals D o (nth a (r_med r) 0%nat) <= vals D o (nth b (r_med r) 0%nat))%Q) by (apply hmin; auto).
    destruct (he o (nth a (r_med r) 0%nat) ho ia) as [fa va]. destruct (he o (nth b (r_med r) 0%nat) ho ib) as [fb vb].
    destruct (proj2 (proj2 hd) o (nth a (r_med r) 0%nat) ho ia) as [oa pa]. destruct (proj2 (proj2 hd) o (nth b (r_med r) 0%nat) ho ib) as [ob pb].
    unfold g, float_ratio. fold a b.
    assert (hu53 : (0 < 2 ^ (-53))%Q) by reflexivity.
    destruct (nis_zero (D o (nth a (r_med r) 0%nat))) eqn:ea; cbn [orb].
    { apply nis_zero_spec in ea; auto. fold (vals D o (nth a (r_med r) 0%nat)) in ea.
      split; [split; [exact I|cbn [lzero NumL_f64 f64_val]; lra]|]. unfold close. cbn [lzero NumL_f64 f64_val].
      assert (hq : (near_ratio (vals D) o (r_med r) == 0)%Q) by (rewrite hr, ea; unfold Qdiv; apply Qmult_0_l).
      rewrite hq. lra. }
    assert (na : ~ (vals D o (nth a (r_med r) 0%nat) == 0)%Q).
    { intros c. apply nis_zero_spec in c; auto. congruence. }
    destruct (nis_zero (D o (nth b (r_med r) 0%nat))) eqn:eb.
    { exfalso. apply nis_zero_spec in eb; auto. fold (vals D o (nth b (r_med r) 0%nat)) in eb. lra. }
    destruct (ratio_within _ _ fa fb) as [w1 w2]; [lra|lra|lra|]. split; [exact w1|].
    eapply close_ext; [| |exact w2]; [reflexivity|]. rewrite hr, va, vb. reflexivity. }
  destruct (@ratio_sum g (fun o => near_ratio (vals D) o (r_med r)) n) as (s & es & ws & cs); [lia|apply fits_u32; exact hu|exact hg|].
  apply left_sum_reduce in es. rewrite <- es in hloss.
  destruct (@msil_end n s (sumQ (fun o => near_ratio (vals D) o (r_med r)) (seq 0 n)) ltac:(lia) hu ws cs) as [r1 r2].
  rewrite as_u32_small in r1, r2 by exact hu. rewrite hloss. split; [apply in_within; exact r1|apply close_off; exact r2].
Qed.
Print Assumptions C46_fastermsc.
Definition C46_fastermsc_case := C46_fastermsc _ 5 _ [0; 1; 2] 10 f1_diss
  (f64_exact_from _ _ _ (diss_nonneg _ _ _ f1_diss)) s53 k53 (le_n 3).

(** C47.  The loss reported in binary64 is that of the returned medoids up to a relative error of
    (n-1)/2^52: for fasterpam and rand_fasterpam, par_fasterpam whatever its threads do, and
    alternating.  It is never NaN or infinite. *)
Definition near_loss {Nt} `{OrdLaws Nt} (n : nat) (D : nat -> nat -> Nt) (r : pam_result f64) : Prop :=
  f64_finite (r_loss r) /\
  off_by ((inject_Z (Z.of_nat n) - 1) * 2 ^ (-52) * tdev (vals D) n (r_med r)) (tdev (vals D) n (r_med r)) (r_loss r).

Lemma bracketed_near {Nt : Type} `{HO : OrdLaws Nt} `{HF : FromN Nt f64} (M : Mat Nt) n D k r :
  diss_matrix M n D -> exact_from n D -> moderate n D -> sizes n k ->
  well_assigned n k (vals D) r -> bracketed (assigned_losses n D r) (r_loss r) -> near_loss n D r.
Proof.
  intros hd he hb (h1 & h2 & h3) ((_ & _ & hin) & _ & hnear & _) hbr.
  assert (hl : length (assigned_losses n D r) = n) by (unfold assigned_losses; rewrite map_length, seq_length; auto).
  assert (ha : forall o, o < n -> nth (nth o (r_assi r) 0) (r_med r) 0 < n) by (intros o ho; apply hin, nth_In, hnear; auto).
  pose proof (bracketed_sum hbr) as h. rewrite hl in h. destruct h as (_ & hw & hc).
  - apply fits_u32. lia.
  - intros x hx. apply in_map_iff in hx as (o & <- & ho). apply in_seq in ho. apply in_within, hb; [lia|apply ha; lia].
  - assert (hs : (sumQ f64_val (assigned_losses n D r) == tdev (vals D) n (r_med r))%Q).
    { rewrite <- (nearest_cost (r_assi r)) by auto. unfold assigned_losses, assigned_cost.
      rewrite SpecFacts.sumQ_map. apply sumQ_ext. intros o ho. apply in_seq in ho. apply he; [lia|apply ha; lia]. }
    split; [apply hw|]. apply close_off. eapply close_ext; [| |exact hc]; rewrite hs; reflexivity.
Qed.

Theorem C47_loss {Nt : Type} `{HO : OrdLaws Nt} `{HF : FromN Nt f64} (M : Mat Nt) n D med maxiter order orc :
  diss_matrix M n D -> exact_from n D -> moderate n D -> sizes n (length med) -> medoids n (length med) med ->
  2 <= length med -> (forall j, In j order -> j < n) -> lfrom (nzero : Nt) = S754_zero false ->
  exists r1 r2 r3 r4 : pam_result f64,
    fasterpam M med maxiter = Ok r1 /\ rand_fasterpam M order med maxiter = Ok r2 /\
    par_fasterpam M orc order med maxiter = Ok r3 /\ alternating M med maxiter = Ok r4 /\
    near_loss n D r1 /\ near_loss n D r2 /\ near_loss n D r3 /\ near_loss n D r4.
Proof.
  intros hd he hb hs hm hk ho hz.
  destruct (C40_fasterpam (Lt := f64) M n D med maxiter order hd hs hm ho) as (r1 & r2 & e1 & e2 & w1 & w2 & hl).
  destruct (hl hk hz) as [l1 l2].
  destruct (C40_par_fasterpam (Lt := f64) M n D med maxiter order orc hd hs hm ho) as (r3 & e3 & w3 & l3). specialize (l3 hk hz).
  destruct (C40_alternating (Lt := f64) M n D med maxiter hd hs hm) as (r4 & e4 & w4 & l4).
  assert (L : forall r : pam_result f64, r_loss r = left_sum (assigned_losses n D r) -> bracketed (assigned_losses n D r) (r_loss r)).
  { intros r h. rewrite h. apply reduce_bracketed. unfold assigned_losses, left_sum. destruct hs as (h1 & h2 & h3).
    destruct n as [|n]; [lia|]. reflexivity. }
  exists r1, r2, r3, r4. do 4 (split; [assumption|]).
  split; [|split; [|split]]; eapply bracketed_near; eauto.
Qed.
Print Assumptions C47_loss.
Definition C47_case := C47_loss _ 5 _ [0; 1] 10 [3; 0; 2] (P_Float.orc2 [1; 0]) f1_diss
  (f64_exact_from _ _ _ (diss_nonneg _ _ _ f1_diss)) f1_moderate s52 k52 (le_n 2) (fun j h => ltac:(simpl in h; lia)) eq_refl.

(** The error is real: the loss is not always the exact one rounded. *)
Theorem C47_exact_refuted : exists (M : Mat f64) D (r : pam_result f64),
  diss_matrix M 5 D /\ fasterpam M [0; 1] 10 = Ok r /\ ~ (f64_val (r_loss r) == tdev (vals D) 5 (r_med r))%Q.
Proof.
  exists (mat_of_rows rows_f1), (fentries rows_f1). eexists. split; [apply f1_diss|]. split; [vm_compute; reflexivity|].
  vm_compute. discriminate.
Qed.
Print Assumptions C47_exact_refuted.
